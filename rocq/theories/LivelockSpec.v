(** Vocabulary for livelock properties (in addition to UniSpec). *)
From Coq Require Import List Arith.
From Verif Require Import UniSpec.
Import ListNotations.

(** A periodic block of local actions: a rectangle of values whose left and
    right border agree, whose top and bottom border agree, and in which every
    inner value is produced by an action from the value to its left (the
    predecessor) and the value above it (the own old value).  [row] is the top
    border and [col] the left border. *)
Definition periodic_block (P : protocol) (row col : list nat) : Prop :=
  exists (m n : nat) (G : nat -> nat -> nat),
    1 <= m /\ 1 <= n /\ length row = S n /\ length col = S m /\
    (forall j, j <= n -> G 0 j = nth j row 0 /\ G m j = nth j row 0) /\
    (forall i, i <= m -> G i 0 = nth i col 0 /\ G i n = nth i col 0) /\
    (forall i j, i < m -> j < n -> P (G (S i) j) (G i (S j)) (G (S i) (S j))).

(** Livelocks on rings of at least K processes, for every K. *)
Definition livelocks_on_large_rings (P : protocol) (M : nat) : Prop :=
  forall K, exists N, K <= N /\ livelock_on P M N.

(** Every execution is finite on a ring of any number of processes. *)
Definition livelock_free (P : protocol) (M : nat) : Prop :=
  forall N, ~ livelock_on P M N.
