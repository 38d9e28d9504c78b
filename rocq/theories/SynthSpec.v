(** Vocabulary for the unidirectional ring generator. *)
From Coq Require Import List Arith.
From Verif Require Import UniSpec TileSpec.
Import ListNotations.

(** Pairs (predecessor value, own value) that are legitimate. *)
Definition legit (legits : list (nat * nat)) (a b : nat) : Prop := In (a, b) legits.

(** A ring state all of whose (predecessor, own) pairs are legitimate. *)
Definition legit_state (legits : list (nat * nat)) (s : list nat) : Prop :=
  forall p, p < length s -> legit legits (nth (pred_of (length s) p) s 0) (nth p s 0).

(** A value from which legitimate pairs can be followed for ever. *)
Definition alive (legits : list (nat * nat)) (x : nat) : Prop :=
  exists e : nat -> nat, e 0 = x /\ forall k, legit legits (e k) (e (S k)).

(** The least value with a legitimate self pair. *)
Definition root (legits : list (nat * nat)) (g : nat) : Prop :=
  legit legits g g /\ forall x, x < g -> ~ legit legits x x.

Definition acts_protocol (acts : list (nat * nat * nat)) : protocol := fun a b c => In (a, b, c) acts.
