(** What a guarded command of a protocol file means. *)
From Coq Require Import String List Arith Bool ZArith.
From Verif Require Import FmlaModel FmlaSpec ActModel NetModel ReachSpec ExprModel ExprSpec CmdModel.
Import ListNotations.
Local Open Scope list_scope.

Section Meaning.
Variable ds : list nat.
Variable G : scope.
Variable b : imap.

(** The variable that "x[i]" stands for in state [s]. *)
Definition cell (x : string) (i : sexp) (s : list nat) : option nat :=
  match value_of G b i s, assoc x (g_arrays G) with Some k, Some l => member l k | _, _ => None end.
Definition is_assigned (l : list assignment) (v : nat) (s : list nat) : Prop :=
  exists x i e, In (ASet x i e) l /\ cell x i s = Some v.
(** Variables without an assignment keep their value ([auto]: even if the command does not say so). *)
Definition keeps_rest (auto : bool) (l : list assignment) : Prop :=
  (auto = true \/ In AKeepRest l) /\ ~ In AAnyRest l.
(** The command takes [s] to [t]: the guard is true in [s]; the variables get the values that the expressions
    have in [s], modulo the sizes of their domains; the other ones of [own] keep theirs.  Nothing is
    said of variables outside [own]. *)
Record command_step (auto : bool) (own : list nat) (act : action) (s t : list nat) : Prop := mkStep {
  c_guard : truth G b (a_guard act) s = Some true;
  c_set : forall x i e v, In (ASet x i (Some e)) (a_assigns act) -> cell x i s = Some v ->
    exists z, value_of G b e s = Some z /\ Z.of_nat (nth v t 0) = (z mod Z.of_nat (nth v ds 0%nat))%Z;
  c_rest : keeps_rest auto (a_assigns act) ->
    forall v, In v own -> ~ is_assigned (a_assigns act) v s -> nth v t 0 = nth v s 0
}.
(** [s0] is [s] with new values of the variables [l], chosen one after the other, all under the guard. *)
Fixpoint redrawn (guard : list nat -> Prop) (l : list nat) (s s0 : list nat) : Prop :=
  match l with
  | [] => s0 = s
  | v :: l' => guard s /\ exists s1, ok ds s1 /\ agree_off ds [v] s1 s /\ redrawn guard l' s1 s0
  end.
End Meaning.

(** What "-=>" removes from the steps [R] of an action. *)
Section Cut.
Variable ds : list nat.
Variable R : list nat -> list nat -> Prop.
(** [hidden]: variables that do not count; [fixed]: variables the process only reads. *)
Variables hidden fixed : list nat.
(** [R] as seen by the process. *)
Definition seen (s t : list nat) : Prop :=
  ok ds s /\ ok ds t /\
  (exists s' t', ok ds s' /\ ok ds t' /\ agree_off ds hidden s' s /\ agree_off ds hidden t' t /\ R s' t') /\
  (forall v, In v fixed -> nth v t 0 = nth v s 0).
(** A step on a cycle, or on a path from cycle to cycle. *)
Definition cyclic (s t : list nat) : Prop :=
  exists t', ok ds t' /\ agree_off ds fixed t' t /\ seen s t' /\
  between_cycles (list nat) seen (fun _ => True) s /\ between_cycles (list nat) seen (fun _ => True) t'.
End Cut.

(** No index is used twice, at any nesting. *)
Definition fresh_command (used : list string) (act : action) : Prop :=
  fresh_indices used (a_guard act) /\
  forall x i e, In (ASet x i e) (a_assigns act) ->
    fresh_indices used i /\ (forall e', e = Some e' -> fresh_indices used e').
(** "_ := _" comes after all assignments. *)
Definition any_last (l : list assignment) : Prop :=
  forall l1 l2, l = l1 ++ AAnyRest :: l2 -> forall x i e, ~ In (ASet x i e) l2.

Section Process.
Variable N : network.
Variable p : process.
(** Every access has a known variable, and no two accesses write the same one. *)
Record proper_process : Prop := mkProper {
  pp_length : length (p_vbls p) = nr (kind_of N p);
  pp_known : wf_ids (vdoms N) (p_vbls p);
  pp_once : NoDup (own_wvbls N p)
}.
(** Somebody reads the variable at random. *)
Definition drawn (v : nat) : bool := existsb (Nat.eqb v) (random_vbls N).
(** The written variables that keep their value if nothing is said: "-=>" leaves out those written at random. *)
Definition kept (cut : bool) : list nat :=
  map (wvbl N p) (filter (fun w => negb (cut && random_write_ck (waccess (kind_of N p) w))) (seq 0 (nw (kind_of N p)))).
(** The variables that do not count: those of the protocol only, or of the specification only. *)
Definition out_of_sight (r : role) : list nat :=
  filter (fun v => match r, nth v (vroles N) Direct with Shadow, Puppet => true | Shadow, _ => false | _, Shadow => true | _, _ => false end)
    (seq 0 (length (vdoms N))).
(** The other variables that the process does not change. *)
Definition only_read (r : role) : list nat :=
  map (rvbl p) (filter (fun i => negb (write_ck (acc (kind_of N p) i)) && negb (drawn (rvbl p i))
                                 && negb (existsb (Nat.eqb (rvbl p i)) (out_of_sight r))) (seq 0 (nr (kind_of N p)))).

(** The steps of an action. *)
Section Action.
Variable G : scope.
Variable b : imap.
Variable auto : bool.
Variable act : action.
(** Variables read at random may have changed since the guard was evaluated; the new values must satisfy it, too. *)
Definition raw_step (s t : list nat) : Prop :=
  exists s0, ok (vdoms N) s0 /\
  redrawn (vdoms N) (fun s => truth G b (a_guard act) s = Some true) (rev (filter drawn (p_vbls p))) s s0 /\
  command_step (vdoms N) G b auto (kept (a_cut act)) act s0 t.
(** The action assigns a variable that the synthesised process cannot read. *)
Definition assigns_unseen (s : list nat) : Prop :=
  exists w, w < nw (kind_of N p) /\ synt_writeonly_ck (waccess (kind_of N p) w) = true /\ is_assigned G b (a_assigns act) (wvbl N p w) s.
Record action_step (r : role) (s t : list nat) : Prop := mkActionStep {
  as_raw : raw_step s t;
  as_cut : a_cut act = true -> ~ cyclic (vdoms N) raw_step (out_of_sight r) (only_read r) s t;
  as_loop : assigns_unseen s -> exists v, In v (own_wvbls N p) /\ nth v t 0 <> nth v s 0
}.
(** What must hold for the action to be accepted. *)
Definition total_action : Prop :=
  let reads v := In v (p_vbls p) in
  total_b (vdoms N) G reads b (a_guard act) /\
  forall x i e, In (ASet x i e) (a_assigns act) ->
    total_i (vdoms N) G reads b i /\ mentions_vbl G i = false /\
    (exists l, assoc x (g_arrays G) = Some l /\ forall s k v, ok (vdoms N) s -> value_of G b i s = Some k -> member l k = Some v ->
       reads v /\ In v (own_wvbls N p)) /\
    forall e', e = Some e' -> total_i (vdoms N) G reads b e'.
End Action.
End Process.

(** A process with and without the action: the steps of its protocol afterwards are [old] and [new] ones; but if it
    writes variables that it cannot read, and none at random, it does not move from states on or between cycles. *)
Definition grown_step (N : network) (p : process) (old new : list nat -> list nat -> Prop) (s t : list nat) : Prop :=
  (old s t \/ new s t) /\
  (existsb synt_writeonly_ck (accs (kind_of N p)) = true -> random_write_exists (kind_of N p) = false ->
   ~ between_cycles (list nat) (fun s t => ok (vdoms N) s /\ ok (vdoms N) t /\ (old s t \/ new s t) /\ agree_off (vdoms N) (written N p) t s)
       (fun _ => True) s).

(** [R] as far as the specification sees it: variables of the protocol only do not count. *)
Definition specified (N : network) (R : list nat -> list nat -> Prop) (s t : list nat) : Prop :=
  exists s' t', ok (vdoms N) s' /\ ok (vdoms N) t' /\ agree_off (vdoms N) (out_of_sight N Shadow) s' s /\
  agree_off (vdoms N) (out_of_sight N Shadow) t' t /\ R s' t'.
(** A process [m] of the kind becomes [m'] when an action with the steps [R] is added in role [r]. *)
Record member_grown (N : network) (r : role) (R : list nat -> list nat -> Prop) (m m' : membr) : Prop := mkGrown {
  mg_number : m_number m' = m_number m;
  mg_index : m_index m' = m_index m;
  mg_kind : p_kind (m_pc m') = p_kind (m_pc m);
  mg_vbls : p_vbls (m_pc m') = p_vbls (m_pc m);
  mg_rest : p_assume (m_pc m') = p_assume (m_pc m) /\ p_permit (m_pc m') = p_permit (m_pc m) /\ p_forbid (m_pc m') = p_forbid (m_pc m);
  mg_puppet : forall s t, ok (vdoms N) s -> ok (vdoms N) t -> (FmlaSpec.steps (p_puppet (m_pc m')) s t <->
    match r with Shadow => FmlaSpec.steps (p_puppet (m_pc m)) s t
    | _ => grown_step N (m_pc m) (FmlaSpec.steps (p_puppet (m_pc m))) R s t end);
  mg_shadow : forall s t, ok (vdoms N) s -> ok (vdoms N) t -> (FmlaSpec.steps (p_shadow (m_pc m')) s t <->
    FmlaSpec.steps (p_shadow (m_pc m)) s t \/ (r <> Puppet /\ specified N R s t))
}.
(** A process [m] of the kind becomes [m'] when an action with the steps [R] is permitted, or forbidden. *)
Record member_marked (N : network) (forbidden : bool) (R : list nat -> list nat -> Prop) (m m' : membr) : Prop := mkMarked {
  mm_same : m_number m' = m_number m /\ m_index m' = m_index m /\ p_kind (m_pc m') = p_kind (m_pc m) /\ p_vbls (m_pc m') = p_vbls (m_pc m) /\
    p_assume (m_pc m') = p_assume (m_pc m) /\ p_puppet (m_pc m') = p_puppet (m_pc m) /\ p_shadow (m_pc m') = p_shadow (m_pc m);
  mm_forbid : forall s t, ok (vdoms N) s -> ok (vdoms N) t -> (FmlaSpec.steps (p_forbid (m_pc m')) s t <->
    FmlaSpec.steps (p_forbid (m_pc m)) s t \/ (forbidden = true /\ R s t));
  mm_permit : forall s t, ok (vdoms N) s -> ok (vdoms N) t -> (FmlaSpec.steps (p_permit (m_pc m')) s t <->
    FmlaSpec.steps (p_permit (m_pc m)) s t \/ (forbidden = false /\ R s t))
}.
(** The formulas that a process of the kind has so far. *)
Definition grown_so_far (N : network) (m : membr) : Prop :=
  trans_fmla (vdoms N) (p_puppet (m_pc m)) /\ trans_fmla (vdoms N) (p_shadow (m_pc m)).
