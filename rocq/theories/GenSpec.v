(** Vocabulary for the protocol generator (in addition to UniSpec, LivelockSpec
    and CanonSpec). *)
From Coq Require Import List Arith Relations.
From Verif Require Import UniSpec.
Import ListNotations.

(** The protocols the generator ranges over: deterministic, self-disabling,
    without the two-process livelocks that two actions form alone and, with
    "-nw-disabling", such that no process is enabled by the value [c] that the
    process before it takes when that process has its value [b] itself. *)
Definition admissible (nw : bool) (P : protocol) : Prop :=
  deterministic P /\ self_disabling P /\
  (forall a c, ~ (P a a c /\ P c c a)) /\
  (forall a b, ~ (P a b a /\ P b a b)) /\
  (nw = true -> forall a b c d, P a b c -> ~ P c b d).

(** The protocol has one of the three first actions the search starts from, and
    the kind of action that an earlier start would have caught is absent. *)
Definition starts (P : protocol) : Prop :=
  P 0 0 1 \/
  ((forall a b, ~ P a a b) /\ P 0 1 0) \/
  ((forall a b, ~ P a a b) /\ (forall a b, ~ P a b a) /\ P 0 1 2).

(** Three rows of actions side by side: the action (a,b,c) with [d] below it is
    followed by an action (c,e,f) with [g] below it; both have an action above
    and below that produces the values used. *)
Definition continues (P : protocol) (u v : nat * nat * nat) : Prop :=
  let '(a, b, d) := u in
  let '(c, e, g) := v in
  P a b c /\ (exists x, P x c d) /\ (exists y, P b y e) /\
  exists f, P c e f /\ P d f g.

(** The action at (a,b) can be continued for ever, returning to itself. *)
Definition recurs (P : protocol) (a b : nat) : Prop :=
  exists d, clos_trans _ (continues P) (a, b, d) (a, b, d).

(** Positions of the actions of a table, in order, and how many there are up to
    position [i]. *)
Definition positions (M : nat) (t : list nat) : list nat :=
  filter (fun i => Nat.ltb (nth i t M) M) (seq 0 (M * M)).
Definition size (M : nat) (t : list nat) : nat := length (positions M t).
Definition upto (M : nat) (t : list nat) (i : nat) : nat :=
  length (filter (fun p => Nat.leb p i) (positions M t)).

(** [t] starts with the actions of [t0]: it has these and possibly further ones,
    all at later positions. *)
Definition extends (M : nat) (t0 t : list nat) : Prop :=
  exists k, forall i, i < M * M ->
    (i < k -> nth i t M = nth i t0 M) /\ (k <= i -> nth i t0 M = M).

(** The first actions of a table, up to position [i]. *)
Definition first_actions (M : nat) (t : list nat) (i : nat) : list nat :=
  map (fun p => if Nat.leb p i then nth p t M else M) (seq 0 (M * M)).

(** Adding actions one at a time in the order of their positions, with the first
    [g] of them at once, the limit [depth] is reached at position [i], more than
    [near] positions before the last one, and [t] has further actions. *)
Definition cut_at (M g depth near : nat) (t : list nat) (i : nat) : Prop :=
  i < M * M /\ nth i t M < M /\ near < M * M - 1 - i /\
  1 <= depth /\ upto M t i = g + depth - 1 /\
  exists j, i < j < M * M /\ nth j t M < M.
Definition cut_off (M g depth near : nat) (t : list nat) : Prop :=
  exists i, cut_at M g depth near t i.
