(** Legitimate states of a bidirectional ring, without reference to the model. *)
From Coq Require Import List Arith.
Import ListNotations.

(** The local view of process [i] in the state [x] of a ring of [n] processes. *)
Definition view (n : nat) (x : nat -> nat) (i : nat) : nat * nat * nat :=
  (x ((i + n - 1) mod n), x i, x ((i + 1) mod n)).

(** A state of a ring of [n] processes with values below [M] all whose views are
    in [V]. *)
Definition legit_ring (M : nat) (V : nat * nat * nat -> Prop) (n : nat) (x : nat -> nat) : Prop :=
  1 <= n /\ (forall i, i < n -> x i < M) /\ forall i, i < n -> V (view n x i).

(** The position of a view in the table: the order of the code. *)
Definition place (M : nat) (v : nat * nat * nat) : nat := let '(a, b, d) := v in (b * M + a) * M + d.

Definition in_table (M : nat) (s : list bool) (v : nat * nat * nat) : Prop := nth (place M v) s false = true.

(** The view [v] occurs in some legitimate state of some ring. *)
Definition occurs (M : nat) (V : nat * nat * nat -> Prop) (v : nat * nat * nat) : Prop :=
  exists n x i, legit_ring M V n x /\ i < n /\ view n x i = v.

(** Rings of size [n] have a legitimate state. *)
Definition satisfiable (M : nat) (V : nat * nat * nat -> Prop) (n : nat) : Prop := exists x, legit_ring M V n x.
