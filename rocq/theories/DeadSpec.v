(** Vocabulary for deadlocks of bidirectional rings.  A local protocol is given
    by its silent local states: triples (left value, own value, right value) in
    which the process cannot act, each marked legitimate or not. *)
From Coq Require Import List Arith.
Import ListNotations.

Definition left_of (N p : nat) : nat := if p =? 0 then N - 1 else p - 1.
Definition right_of (N p : nat) : nat := if S p =? N then 0 else S p.

Definition local (s : list nat) (p : nat) : nat * nat * nat :=
  (nth (left_of (length s) p) s 0, nth p s 0, nth (right_of (length s) p) s 0).

(** A ring of [length s] processes none of which can act. *)
Definition silent_ring (silent : nat * nat * nat -> Prop) (s : list nat) : Prop :=
  s <> [] /\ forall p, p < length s -> silent (local s p).

(** ... at least one of which is in an illegitimate local state. *)
Definition deadlock_ring (silent illegit : nat * nat * nat -> Prop) (s : list nat) : Prop :=
  silent_ring silent s /\ exists p, p < length s /\ illegit (local s p).
