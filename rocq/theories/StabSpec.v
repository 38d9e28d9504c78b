(** Vocabulary for randomised systems and for invariants given through shadow
    variables.  Nothing here refers to the model of the code. *)
From Coq Require Import List Arith.
Import ListNotations.

Section Random.
Variable St : Type.

(** The processes of a system.  In a state a scheduler picks an enabled process;
    which of its transitions happens is decided by chance, every one of them with
    positive probability. *)
Variable procs : list (St -> St -> Prop).

Definition can_move (P : St -> St -> Prop) (s : St) : Prop := exists t, P s t.

(** Whatever process the scheduler picks each time, chance brings the system into
    I within k steps with positive probability (and there is a process to pick as
    long as I has not been entered). *)
Fixpoint attracted (I : St -> Prop) (k : nat) (s : St) : Prop :=
  I s \/
  match k with
  | 0 => False
  | S k' =>
      (exists P, In P procs /\ can_move P s) /\
      forall P, In P procs -> can_move P s -> exists t, P s t /\ attracted I k' t
  end.

(** The scheduler can keep the system inside C forever, and no transition it
    risks on the way is one of [good]. *)
Definition trap (good : St -> St -> Prop) (C : St -> Prop) : Prop :=
  forall s, C s -> exists P, In P procs /\ can_move P s /\
    forall t, P s t -> C t /\ ~ good s t.
End Random.

Section Shadow.
Variable St : Type.
(** [R]: the transitions of the implementation; [S]: those of the specification;
    [same s t]: s and t agree on all variables of the specification. *)
Variables R S same : St -> St -> Prop.

(** A transition of the implementation that is a transition of the specification
    when only specification variables are looked at. *)
Definition visible (s t : St) : Prop := exists a b, same s a /\ same t b /\ S a b.

(** Inside H every transition is invisible or allowed by the specification. *)
Definition simulates (H : St -> Prop) : Prop :=
  forall s t, H s -> R s t -> same s t \/ visible s t.
End Shadow.

Definition is_equivalence (St : Type) (E : St -> St -> Prop) : Prop :=
  (forall x, E x x) /\ (forall x y, E x y -> E y x) /\ (forall x y z, E x y -> E y z -> E x z).
