(** Renamings of values and what a set of views is up to them. *)
From Coq Require Import List Arith.
From Verif Require Import BiringSpec.
Import ListNotations.

(** A one-to-one map of the values below [M]. *)
Definition renaming (M : nat) (f : nat -> nat) : Prop :=
  (forall k, k < M -> f k < M) /\ (forall j k, j < M -> k < M -> f j = f k -> j = k).

(** The table [t] is the table [s] with the values renamed by [f]. *)
Definition renamed (M : nat) (f : nat -> nat) (s t : list bool) : Prop :=
  length t = length s /\
  forall a b d, a < M -> b < M -> d < M -> (in_table M t (f a, f b, f d) <-> in_table M s (a, b, d)).

Definition isomorphic (M : nat) (s t : list bool) : Prop := exists f, renaming M f /\ renamed M f s t.

(** A strict order of tables in which two different tables are comparable. *)
Definition strict_total (gt : list bool -> list bool -> bool) : Prop :=
  (forall a, gt a a = false) /\ (forall a b c, gt a b = true -> gt b c = true -> gt a c = true) /\
  (forall a b, a <> b -> gt a b = true \/ gt b a = true).
