(** What an action of a network does, in terms of the values of its variables.  Of the model only
    the descriptions of networks, processes and accesses are used, and the meaning of formulas
    (FmlaSpec.v) and of action values (ActSpec.v). *)
From Coq Require Import List Arith Bool.
From Verif Require Import FmlaModel FmlaSpec ActModel ActSpec NetModel.
Import ListNotations.

Section Spec.
Variable N : network.
Notation ds := (vdoms N).

(** The kind of a process, its accesses, and the variable behind an access. *)
Definition its_kind (p : process) : pcsymm := nth (p_kind p) (kinds N) pc0.
Definition accesses (p : process) : nat := length (accs (its_kind p)).
Definition access_at (p : process) (i : nat) : access := nth i (accs (its_kind p)) acc0.
Definition vbl_at (p : process) (i : nat) : nat := nth i (p_vbls p) 0.
Definition value (s : list nat) (p : process) (i : nat) : nat := nth (vbl_at p i) s 0.

(** Variables that change by themselves: somebody reads them at random. *)
Definition fickle (x : nat) : Prop :=
  exists p i, In p (pcs N) /\ i < accesses p /\ a_type (access_at p i) = RandomReadAccess /\ vbl_at p i = x.
(** Variables a process may write. *)
Definition own (p : process) (x : nat) : Prop :=
  exists i, i < accesses p /\ writable (access_at p i) /\ vbl_at p i = x.
(** It gives one of them a random value. *)
Definition randomised (p : process) : Prop :=
  exists i, i < accesses p /\ visible (access_at p i) /\ a_type (access_at p i) = RandomWriteAccess.

(** A network that can have been put together: accesses refer to variables of the right domain and
    role, domains are not empty, links are laid out properly, and the formulas of a process only
    talk about what they may. *)
Record net_ok : Prop := mkNetOk {
  no_dom : inhabited ds;
  no_kind : forall p, In p (pcs N) -> p_kind p < length (kinds N);
  no_vbls : forall p, In p (pcs N) -> length (p_vbls p) = accesses p;
  no_id : forall p i, In p (pcs N) -> i < accesses p ->
    vbl_at p i < length ds /\ nth (vbl_at p i) ds 0 = a_dom (access_at p i)
    /\ nth (vbl_at p i) (vroles N) Direct = a_role (access_at p i);
  no_links : forall k, In k (kinds N) -> laid_out k;
  no_assume : forall p, In p (pcs N) -> state_fmla ds (p_assume p);
  no_local : forall p, In p (pcs N) -> forall f, In f [p_puppet p; p_permit p; p_forbid p] ->
    trans_fmla ds f /\
    forall a i i' q, ok ds a -> ok ds i -> ok ds i' -> ok ds q ->
      (forall x, own p x \/ fickle x -> nth x i 0 = nth x i' 0) -> (meaning f a i q <-> meaning f a i' q)
}.

(** Process [p] executes the action with the values [v] in state [s], which leads to [t]. *)
Record local_move (p : process) (v s t : list nat) : Prop := mkMove {
  lm_guard : forall i, i < accesses p -> visible (access_at p i) -> value s p i = tested v i;
  lm_assign : forall i, i < accesses p -> writable (access_at p i) -> a_type (access_at p i) <> RandomWriteAccess ->
    value t p i = if assigned (its_kind p) v i =? a_dom (access_at p i) then value s p i else assigned (its_kind p) v i;
  (** nothing else changes *)
  lm_frame : forall x, x < length ds -> ~ own p x -> ~ fickle x -> nth x t 0 = nth x s 0;
  (** if no visible value changes then an invisible one does *)
  lm_effect : ~ randomised p ->
    (forall i, i < accesses p -> writable (access_at p i) -> visible (access_at p i) -> tested v i = assigned (its_kind p) v i) ->
    exists i, i < accesses p /\ writable (access_at p i) /\ ~ visible (access_at p i) /\
      assigned (its_kind p) v i < a_dom (access_at p i) /\ value s p i <> assigned (its_kind p) v i;
  (** random assignments respect assumption, permissions and prohibitions *)
  lm_random : randomised p ->
    holds (p_assume p) s /\ holds (p_assume p) t /\ ~ steps (p_forbid p) s t /\
    ((exists a i q, ok ds a /\ ok ds i /\ ok ds q /\ meaning (p_permit p) a i q) -> steps (p_permit p) s t)
}.

(** ... an action numbered [a] or one that differs from it in the names of links only. *)
Definition class_move (a : nat) (p : process) (s t : list nat) : Prop :=
  exists r, r < actions_in (kinds N) /\ same_action_class (kinds N) a r /\
    p_kind p = act_pc (act_of (kinds N) r) /\ local_move p (vals (act_of (kinds N) r)) s t.

(** The kind of process an action is for writes no variable at random. *)
Definition deterministic_kind (a : nat) : Prop :=
  forall x, In x (accs (nth (act_pc (act_of (kinds N) a)) (kinds N) pc0)) -> a_type x <> RandomWriteAccess.

(** Given one formula per process (what the program keeps for an action), the process at position
    [j] has a step from [s] to [t]: its formula allows it and only what it may write changes. *)
Definition process_step (xs : list fmla) (j : nat) (s t : list nat) : Prop :=
  exists q, nth_error (procs_of N xs) j = Some q /\ proc_step ds q s t.
End Spec.
