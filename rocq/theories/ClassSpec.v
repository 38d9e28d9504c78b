(** Vocabulary for the classifier. *)
From Coq Require Import List Arith.
From Verif Require Import UniSpec LivelockSpec.

(** A periodic livelock block of the given width. *)
Definition has_block (P : protocol) (w : nat) : Prop :=
  exists row col, periodic_block P row col /\ length row = S w.
(** A strip of [w] columns of local actions that repeats vertically; its left border is free. *)
Definition strip (P : protocol) (w : nat) : Prop :=
  exists (m : nat) (G : nat -> nat -> nat), 1 <= m /\ (forall j, j <= w -> G m j = G 0 j) /\
  forall i j, i < m -> j < w -> P (G (S i) j) (G i (S j)) (G (S i) (S j)).
