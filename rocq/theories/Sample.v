(** A four-element state space for the examples. *)
From Coq Require Import List Arith Bool.
Import ListNotations.

Inductive quad := q0 | q1 | q2 | q3.
Definition quad_dec : forall x y : quad, {x = y} + {x <> y}.
Proof. decide equality. Defined.
Definition quads : list quad := [q0; q1; q2; q3].
Lemma quads_all : forall s, In s quads.
Proof. intros []; simpl; auto. Qed.
Definition num (q : quad) : nat := match q with q0 => 0 | q1 => 1 | q2 => 2 | q3 => 3 end.

(** Sets and relations given by lists of numbers. *)
Definition qset (l : list nat) (q : quad) : bool := existsb (Nat.eqb (num q)) l.
Definition qrel (l : list (nat * nat)) (a b : quad) : bool :=
  existsb (fun e => (fst e =? num a) && (snd e =? num b)) l.
Definition shown (p : quad -> bool) : list nat := map num (filter p quads).
