(** Vocabulary for Wang tiles and the ring protocols made from them. *)
From Coq Require Import List Arith NArith.
From Verif Require Import UniSpec WangModel.

Definition west (t : tile) : N := let '(w, n, s, e) := t in w.
Definition north (t : tile) : N := let '(w, n, s, e) := t in n.
Definition south (t : tile) : N := let '(w, n, s, e) := t in s.
Definition east (t : tile) : N := let '(w, n, s, e) := t in e.

(** Rows go down and columns to the right; touching edges have the same colour. *)
Definition wang_tiling (W : list tile) (T : nat -> nat -> tile) : Prop :=
  forall i j, In (T i j) W /\ east (T i j) = west (T i (S j)) /\ south (T i j) = north (T (S i) j).
(** A grid of values in which every inner value is made by an action from the value to its left
    and the one above. *)
Definition action_tiling (P : protocol) (X : nat -> nat -> nat) : Prop :=
  forall i j, P (X (S i) j) (X i (S j)) (X (S i) (S j)).
Definition repeats {A : Type} (X : nat -> nat -> A) (m n : nat) : Prop :=
  1 <= m /\ 1 <= n /\ (forall i j, X (i + m) j = X i j) /\ forall i j, X i (j + n) = X i j.

(** Infinitely large, and periodic, tilings. *)
Definition wang_tiles (W : list tile) : Prop := exists T, wang_tiling W T.
Definition wang_tiles_periodically (W : list tile) : Prop := exists T m n, wang_tiling W T /\ repeats T m n.
Definition action_tiles (P : protocol) : Prop := exists X, action_tiling P X.
Definition action_tiles_periodically (P : protocol) : Prop := exists X m n, action_tiling P X /\ repeats X m n.

(** The west and north colours determine the tile. *)
Definition NW_deterministic (W : list tile) : Prop :=
  forall t u, In t W -> In u W -> west t = west u -> north t = north u -> t = u.
(** The colours are numbers below UINT_MAX. *)
Definition colours_ok (W : list tile) : Prop :=
  forall t, In t W -> (west t < UINT_MAX /\ north t < UINT_MAX /\ south t < UINT_MAX /\ east t < UINT_MAX)%N.
(** The protocol that a list of actions is. *)
Definition protocol_of (acts : list (nat * nat * nat)) : protocol := fun a b c => In (a, b, c) acts.
(** No action is enabled, with the same left (W) or own (N) value as before, right after an action. *)
Definition N_disabling (P : protocol) : Prop := forall a b c d, P a b c -> ~ P c b d.
Definition commutative_protocol (P : protocol) : Prop := forall a b c, P a b c -> P b a c.
