(** Vocabulary for digraphs and tiles. *)
From Coq Require Import List Arith.
From Verif Require Import UniSpec.
Import ListNotations.

(** Non-empty directed paths. *)
Inductive path (R : nat -> nat -> Prop) : nat -> nat -> Prop :=
| path_one : forall x y, R x y -> path R x y
| path_more : forall x y z, R x y -> path R y z -> path R x z.

(** [chain R l]: consecutive elements of [l] are related. *)
Fixpoint chain (R : nat -> nat -> Prop) (l : list nat) : Prop :=
  match l with
  | x :: (y :: _) as l' => R x y /\ chain R l'
  | _ => True
  end.

Definition acyclic (R : nat -> nat -> Prop) : Prop := forall x, ~ path R x x.

(** A list of (west, north) pairs that forms a closed horizontal chain of
    actions of P: each new value is the west value of the next pair, and the
    last one of the first pair.  [cs] are the new values. *)
Definition closed_chain (P : protocol) (acts : list (nat * nat)) (cs : list nat) : Prop :=
  length cs = length acts /\ acts <> [] /\
  forall j, j < length acts ->
    P (fst (nth j acts (0, 0))) (snd (nth j acts (0, 0))) (nth j cs 0) /\
    fst (nth (if S j =? length acts then 0 else S j) acts (0, 0)) = nth j cs 0.
