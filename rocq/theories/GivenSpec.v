(** The protocol a system is given, process by process, and its actions. *)
From Coq Require Import List Arith Bool.
From Verif Require Import FmlaModel FmlaSpec ActModel ActSpec NetModel NetSpec.
Import ListNotations.

Section Spec.
Variable N : network.
Notation ds := (vdoms N).

(** A kind of process that sees all it accesses and assigns nothing at random. *)
Definition open_kind (k : pcsymm) : Prop :=
  forall a, In a (accs k) -> visible a /\ a_type a <> RandomWriteAccess.

(** The given protocol lets process [p] take a transition from [s] to [t], as far as its variables
    are concerned. *)
Definition given_to (p : process) (s t : list nat) : Prop :=
  ok ds s /\ ok ds t /\ holds (p_assume p) s /\ steps (p_puppet p) s t.
(** ... and only its variables change (and those that change by themselves). *)
Definition given_step (p : process) (s t : list nat) : Prop :=
  given_to p s t /\ forall x, x < length ds -> ~ own N p x -> ~ fickle N x -> nth x t 0 = nth x s 0.
(** The values [v] of an action are those before and after a transition. *)
Definition describes (p : process) (v s t : list nat) : Prop :=
  (forall i, i < accesses N p -> value s p i = tested v i) /\
  (forall i, i < accesses N p -> writable (access_at N p i) -> value t p i = assigned (its_kind N p) v i).

(** What the protocol lets a process do depends on the values it accesses only, and not on which of
    the processes of its kind it is. *)
Definition uniform : Prop :=
  forall p q s t s' t', In p (pcs N) -> In q (pcs N) -> p_kind p = p_kind q ->
    ok ds s -> ok ds t -> ok ds s' -> ok ds t' ->
    (forall i, i < accesses N p -> value s p i = value s' q i) ->
    (forall i, i < accesses N p -> writable (access_at N p i) -> value t p i = value t' q i) ->
    given_to p s t -> given_to q s' t'.
(** ... nor on the names of interchangeable links. *)
Definition even_handed : Prop :=
  forall p q v v' s t s' t', In p (pcs N) -> In q (pcs N) -> p_kind p = p_kind q ->
    action_values (its_kind N p) v -> action_values (its_kind N p) v' -> relinked (its_kind N p) v v' ->
    ok ds s' -> ok ds t' -> describes p v s t -> describes q v' s' t' -> given_to p s t -> given_to q s' t'.

(** The processes whose part of the protocol is read: the first one of its kind that accesses no
    variable twice, or all of the kind if there is none. *)
Definition speaks (q : process) : Prop :=
  In q (pcs N) /\
  ((exists j, nth_error (pcs N) j = Some q /\ NoDup (p_vbls q) /\
      forall i q', i < j -> nth_error (pcs N) i = Some q' -> p_kind q' = p_kind q -> ~ NoDup (p_vbls q')) \/
   (forall q', In q' (pcs N) -> p_kind q' = p_kind q -> ~ NoDup (p_vbls q'))).
End Spec.
