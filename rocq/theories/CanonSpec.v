(** Vocabulary for renamings of the values of a protocol. *)
From Coq Require Import List Arith.
From Verif Require Import UniSpec.
Import ListNotations.

(** A renaming is a bijection of the values below M. *)
Definition renaming (M : nat) (pi : nat -> nat) : Prop :=
  (forall a, a < M -> pi a < M) /\ (forall a b, a < M -> b < M -> pi a = pi b -> a = b).

(** [t'] is the protocol [t] with values renamed by [pi]. *)
Definition renamed (M : nat) (pi : nat -> nat) (t t' : list nat) : Prop :=
  table_ok M t' /\
  (forall a b c, table_protocol M t a b c -> table_protocol M t' (pi a) (pi b) (pi c)) /\
  (forall a' b' c', table_protocol M t' a' b' c' ->
     exists a b c, table_protocol M t a b c /\ a' = pi a /\ b' = pi b /\ c' = pi c).

(** Lexicographic order on tables of the same size. *)
Definition lex_less (l l' : list nat) : Prop :=
  exists i, i < length l' /\ firstn i l = firstn i l' /\ nth i l 0 < nth i l' 0.

Definition minimal (M : nat) (t : list nat) : Prop :=
  forall pi t', renaming M pi -> renamed M pi t t' -> ~ lex_less t' t.
