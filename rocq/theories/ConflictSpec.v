(** Vocabulary for conflict families: a finite set of action numbers is a
    strictly increasing list; a set is rejected when it contains a set that was
    declared conflicting. *)
From Coq Require Import List Arith Sorting.Sorted.
Import ListNotations.

Definition set_ok (s : list nat) : Prop := StronglySorted lt s.

Definition rejected (declared : list (list nat)) (t : list nat) : Prop :=
  exists b, In b declared /\ incl b t.

(** No member is contained in another one. *)
Definition antichain (ss : list (list nat)) : Prop :=
  NoDup ss /\ forall a b, In a ss -> In b ss -> incl a b -> a = b.

(** What a sender does between exchanges. *)
Inductive event := Declare (b : list nat) | Exchange.

Fixpoint declared (evs : list event) : list (list nat) :=
  match evs with
  | [] => []
  | Declare b :: evs' => b :: declared evs'
  | Exchange :: evs' => declared evs'
  end.
