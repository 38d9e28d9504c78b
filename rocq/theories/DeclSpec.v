(** What a protocol file says. *)
From Coq Require Import String List Arith Bool ZArith.
From Verif Require Import FmlaModel FmlaSpec ActModel NetModel ReachSpec ExprModel ExprSpec CmdModel CmdSpec DeclModel.
Import ListNotations.
Local Open Scope list_scope.

(** The predicate that an expression stands for *)
Definition stands_for (G : scope) (b : imap) (e : sexp) (s : list nat) : bool :=
  match truth G b e s with Some v => v | None => false end.
(** The names seen after a statement: a predicate is seen by what follows it, in its process if it is in one. *)
Definition after_inside (G : scope) (b : imap) (st : stmt) : scope :=
  match st with
  | Predicate x e => mkScope (s_lets G) ((x, stands_for G b e) :: s_preds G) (g_consts G) (g_arrays G) (g_preds G)
  | _ => G
  end.
Definition after_outside (G : scope) (st : stmt) : scope :=
  match st with
  | Predicate x e => mkScope (s_lets G) (s_preds G) (g_consts G) (g_arrays G) ((x, stands_for G [] e) :: g_preds G)
  | _ => G
  end.
(** The names that the statements of process [m] see at first *)
Definition entering (G : scope) (h : pc_head) (m : membr) : scope :=
  mkScope (map (fun xl => (fst xl, nth (m_number m) (snd xl) 0%Z)) (h_lets h)) [] (g_consts G) (g_arrays G) (g_preds G).

(** Every statement, with what it sees, is as [Q] says; there is one that is as [Q] says *)
Fixpoint every_stmt (Q : scope -> stmt -> Prop) (G : scope) (b : imap) (l : list stmt) : Prop :=
  match l with [] => True | st :: l' => Q G st /\ every_stmt Q (after_inside G b st) b l' end.
Fixpoint some_stmt (Q : scope -> stmt -> Prop) (G : scope) (b : imap) (l : list stmt) : Prop :=
  match l with [] => False | st :: l' => Q G st \/ some_stmt Q (after_inside G b st) b l' end.
Definition after_item (G : scope) (it : item) : scope := match it with Outside st => after_outside G st | Inside _ _ => G end.
Fixpoint every_item (Q : scope -> item -> Prop) (G : scope) (l : list item) : Prop :=
  match l with [] => True | it :: l' => Q G it /\ every_item Q (after_item G it) l' end.
Fixpoint some_item (Q : scope -> item -> Prop) (G : scope) (l : list item) : Prop :=
  match l with [] => False | it :: l' => Q G it \/ some_item Q (after_item G it) l' end.

(** The index of a process has this value *)
Definition indexed (h : pc_head) (m : membr) : imap := [(h_idx h, m_index m)].

(** A state is as the statements of the process assume, or demand of legitimate states *)
Definition assumed (b : imap) (s : list nat) (G : scope) (st : stmt) : Prop :=
  match st with Assume e => truth G b e s = Some true | _ => True end.
Definition demanded (b : imap) (s : list nat) (G : scope) (st : stmt) : Prop :=
  match st with Legit _ e => truth G b e s = Some true | _ => True end.
(** The same for the whole file; [what] is [assumed] or [demanded] *)
Definition in_all (what : imap -> list nat -> scope -> stmt -> Prop) (s : list nat) (G : scope) (it : item) : Prop :=
  match it with
  | Outside st => what [] s G st
  | Inside h l => forall m, In m (h_membs h) -> every_stmt (what (indexed h m) s) (entering G h m) (indexed h m) l
  end.

(** The steps of process [m] that an action of its text gives it in the roles [R] *)
Definition given (h : pc_head) (m : membr) (R : role -> Prop) (s t : list nat) (G : scope) (st : stmt) : Prop :=
  match st with Act r a => R r /\ action_step (h_net h) (m_pc m) G (indexed h m) true a r s t | _ => False end.
Definition permitted (h : pc_head) (m : membr) (s t : list nat) (G : scope) (st : stmt) : Prop :=
  match st with Permit a => action_step (h_net h) (m_pc m) G (indexed h m) false a Puppet s t | _ => False end.
Definition forbidden (h : pc_head) (m : membr) (s t : list nat) (G : scope) (st : stmt) : Prop :=
  match st with Forbid a => action_step (h_net h) (m_pc m) G (indexed h m) false a Puppet s t | _ => False end.
(** A step of the system: one of some process, which leaves the variables of the others alone *)
Definition in_some (R : role -> Prop) (s t : list nat) (G : scope) (it : item) : Prop :=
  match it with
  | Outside _ => False
  | Inside h l => exists m, In m (h_membs h) /\ agree_off (vdoms (h_net h)) (written (h_net h) (m_pc m)) t s /\
      some_stmt (given h m R s t) (entering G h m) (indexed h m) l
  end.
(** A step that the specification sees: variables of the protocol only do not count *)
Definition in_some_seen (R : role -> Prop) (s t : list nat) (G : scope) (it : item) : Prop :=
  match it with
  | Outside _ => False
  | Inside h l => specified (h_net h) (fun s t => in_some R s t G it) s t /\ ~ agree_off (vdoms (h_net h)) (out_of_sight (h_net h) Shadow) t s
  end.
Definition not_shadow (r : role) : Prop := r <> Shadow.
Definition not_puppet (r : role) : Prop := r <> Puppet.

(** ** Files that can have been written *)
Section Proper.
Variable ds : list nat.
(** No index is used twice, "_ := _" comes last, and a process does not name a predicate as one outside is named. *)
Definition proper_stmt (used : list string) (G : scope) (st : stmt) : Prop :=
  match st with
  | Predicate x e => fresh_indices used e /\ assoc x (g_preds G) = None
  | Assume e | Legit _ e => fresh_indices used e
  | Act _ a | Permit a | Forbid a => fresh_command used a /\ any_last (a_assigns a)
  end.
(** The processes of the kind are numbered, have the variables they access, no formulas yet, and a value of every let;
    no let is named as a constant. *)
Record proper_head (G : scope) (h : pc_head) : Prop := mkProperHead {
  ph_doms : vdoms (h_net h) = ds;
  ph_random : wf_ids ds (random_vbls (h_net h));
  ph_numbers : map m_number (h_membs h) = seq 0 (length (h_membs h));
  ph_process : forall m, In m (h_membs h) -> proper_process (h_net h) (m_pc m);
  ph_blank : forall m, In m (h_membs h) -> exists k vs, m_pc m = mkProcess k vs (Cst true) (Cst false) (Cst false) (Cst false) (Cst false);
  ph_lets : forall x l, In (x, l) (h_lets h) -> length l = length (h_membs h) /\ assoc x (g_consts G) = None
}.
Definition proper_item (G : scope) (it : item) : Prop :=
  match it with
  | Outside (Predicate _ e) | Outside (Assume e) | Outside (Legit _ e) => fresh_indices [] e
  | Outside _ => False
  | Inside h l => proper_head G h /\ Forall (proper_stmt [h_idx h] G) l
  end.
(** The declarations: constants have values, arrays have variables that there are, none has two meanings. *)
Record proper_decls (consts : list (string * list Z)) (arrays : list (string * list nat)) : Prop := mkProperDecls {
  pd_consts : forall x l, assoc x consts = Some l -> l <> [];
  pd_arrays : forall x l, assoc x arrays = Some l -> l <> [] /\ Forall (fun v => v < length ds) l;
  pd_once : forall x, assoc x arrays <> None -> assoc x consts = None
}.
Definition at_first (consts : list (string * list Z)) (arrays : list (string * list nat)) : scope := mkScope [] [] consts arrays [].

(** ** Files that must be accepted *)
Definition total_stmt (N : network) (m : membr) (b : imap) (G : scope) (st : stmt) : Prop :=
  match st with
  | Predicate _ e | Assume e | Legit _ e => total_b ds G (fun v => In v (p_vbls (m_pc m))) b e
  | Act _ a | Permit a | Forbid a => total_action N (m_pc m) G b a
  end.
Definition total_item (G : scope) (it : item) : Prop :=
  match it with
  | Outside (Predicate _ e) | Outside (Assume e) | Outside (Legit _ e) => total_b ds G (fun _ => True) [] e
  | Outside _ => False
  | Inside h l => forall m, In m (h_membs h) -> every_stmt (total_stmt (h_net h) m (indexed h m)) (entering G h m) (indexed h m) l
  end.
End Proper.
(** The modes of the invariants in the file *)
Definition modes_of (l : list stmt) : list mode := flat_map (fun st => match st with Legit md _ => [md] | _ => [] end) l.
Definition modes (l : list item) : list mode :=
  flat_map (fun it => match it with Outside st => modes_of [st] | Inside _ b => modes_of b end) l.

(** What becomes of a process of the kind *)
Record member_says (h : pc_head) (G : scope) (l : list stmt) (m : membr) (m' : member) : Prop := mkSays {
  ms_number : m_number (mb_pc m') = m_number m;
  ms_index : m_index (mb_pc m') = m_index m;
  ms_kind : p_kind (m_pc (mb_pc m')) = p_kind (m_pc m);
  ms_vbls : p_vbls (m_pc (mb_pc m')) = p_vbls (m_pc m);
  ms_states : state_fmla (vdoms (h_net h)) (p_assume (m_pc (mb_pc m'))) /\ state_fmla (vdoms (h_net h)) (mb_invariant m');
  ms_assume : forall s, ok (vdoms (h_net h)) s ->
    (holds (p_assume (m_pc (mb_pc m'))) s <-> every_stmt (assumed (indexed h m) s) (entering G h m) (indexed h m) l);
  ms_invariant : forall s, ok (vdoms (h_net h)) s ->
    (holds (mb_invariant m') s <-> every_stmt (demanded (indexed h m) s) (entering G h m) (indexed h m) l);
  (** if it reads all variables that it writes, or writes some at random *)
  ms_puppet : existsb synt_writeonly_ck (accs (kind_of (h_net h) (m_pc m))) && negb (random_write_exists (kind_of (h_net h) (m_pc m))) = false ->
    forall s t, ok (vdoms (h_net h)) s -> ok (vdoms (h_net h)) t ->
    (FmlaSpec.steps (p_puppet (m_pc (mb_pc m'))) s t <-> some_stmt (given h m not_shadow s t) (entering G h m) (indexed h m) l);
  ms_shadow : forall s t, ok (vdoms (h_net h)) s -> ok (vdoms (h_net h)) t ->
    (FmlaSpec.steps (p_shadow (m_pc (mb_pc m'))) s t <->
     specified (h_net h) (fun s t => some_stmt (given h m not_puppet s t) (entering G h m) (indexed h m) l) s t);
  ms_permit : forall s t, ok (vdoms (h_net h)) s -> ok (vdoms (h_net h)) t ->
    (FmlaSpec.steps (p_permit (m_pc (mb_pc m'))) s t <-> some_stmt (permitted h m s t) (entering G h m) (indexed h m) l);
  ms_forbid : forall s t, ok (vdoms (h_net h)) s -> ok (vdoms (h_net h)) t ->
    (FmlaSpec.steps (p_forbid (m_pc (mb_pc m'))) s t <-> some_stmt (forbidden h m s t) (entering G h m) (indexed h m) l)
}.
(** What becomes of the kinds of processes *)
Fixpoint kinds_say (G : scope) (l : list item) (Ps : list pc_state) : Prop :=
  match l with
  | [] => Ps = []
  | Outside st :: l' => kinds_say (after_outside G st) l' Ps
  | Inside h body :: l' => exists P Ps', Ps = P :: Ps' /\ Forall2 (member_says h G body) (h_membs h) (k_membs P) /\ kinds_say G l' Ps'
  end.
