(** Model of the reduction from Wang tiles to ring protocols, /repo/src/uni/aperiodic.cc:41-262, and of
    the stored protocol of /repo/src/uni/unifile.cc:519-563.

    A tile is (west, north, south, east), as in the code.  [Map] from symbols to ids is the list of
    the symbols in the order of their ids; [Set] is a list in increasing order without repetitions
    (std::set with lexicographic order).  Colours are [N]: they are uints, and UINT_MAX is a
    colour of the code. *)
From Coq Require Import List Arith Bool NArith.
From Verif Require Import UniModel.
Import ListNotations.

Definition tile : Type := (N * N * N * N)%type.
Definition sym : Type := (N * N * N)%type.
Definition UINT_MAX : N := 4294967295%N.

(** aperiodic.cc:48-66 *)
Definition TileSet : list tile :=
 ([(1, 1, 2, 2); (1, 5, 4, 1); (2, 3, 6, 2); (2, 4, 6, 1); (2, 5, 3, 1); (3, 2, 2, 6); (3, 3, 4, 4); (3, 4, 4, 5);
   (3, 6, 4, 3); (4, 2, 1, 6); (4, 3, 5, 4); (4, 4, 5, 5); (5, 1, 1, 4); (5, 2, 1, 3); (6, 3, 3, 4); (6, 6, 3, 3)])%N.

Definition sym_eqb (x y : sym) : bool :=
  let '(a, b, c) := x in let '(d, e, f) := y in ((a =? d) && (b =? e) && (c =? f))%N.
Fixpoint sym_index (m : list sym) (x : sym) : option nat :=
  match m with
  | [] => None
  | y :: m' => if sym_eqb y x then Some 0 else option_map S (sym_index m' x)
  end.
(** [LookupSymId], aperiodic.cc:72-80; [ensure] gives the stored id, or stores the given one. *)
Definition LookupSymId (m : list sym) (x : sym) : list sym * nat :=
  match sym_index m x with
  | Some i => (m, i)
  | None => (m ++ [x], length m)
  end.

(** Set<uint>::operator<<, in increasing order. *)
Fixpoint nset_add (s : list N) (x : N) : list N :=
  match s with
  | [] => [x]
  | y :: s' => if (x <? y)%N then x :: s else if (x =? y)%N then s else y :: nset_add s' x
  end.
(** Set<UniAct>::operator<<, lexicographic. *)
Definition act_ltb (x y : UniAct) : bool :=
  let '(a, b, c) := x in let '(d, e, f) := y in
  (a <? d) || ((a =? d) && ((b <? e) || ((b =? e) && (c <? f)))).
Definition act_eqb (x y : UniAct) : bool :=
  let '(a, b, c) := x in let '(d, e, f) := y in (a =? d) && (b =? e) && (c =? f).
Fixpoint actset_add (s : list UniAct) (x : UniAct) : list UniAct :=
  match s with
  | [] => [x]
  | y :: s' => if act_ltb x y then x :: s else if act_eqb x y then s else y :: actset_add s' x
  end.

(** The tags of aperiodic.cc:105 and 177-179 *)
Definition direction_tag : N := 1%N.
Definition special_tag : N := 0%N.
Definition double_direction_tag : N := 2%N.
(** The default arguments of [LookupSymId]. *)
Definition doll_sym : sym := (UINT_MAX, UINT_MAX, UINT_MAX).
Definition cd_sym (c d : N) : sym := (c, d, UINT_MAX).
Definition tag_sym (v dir tag : N) : sym := (v, dir, tag).

(** aperiodic.cc:109-123 *)
Definition reserve_low_ids (m : list sym) (tiles : list tile) : list sym :=
  let '(ri, up) := fold_left (fun s (t : tile) =>
      let '(w, n, so, e) := t in let '(ri, up) := s in
      (nset_add (nset_add ri w) e, nset_add (nset_add up n) so)) tiles ([], []) in
  let m := fold_left (fun m x => fst (LookupSymId m (tag_sym x 0 direction_tag))) ri m in
  fold_left (fun m x => fst (LookupSymId m (tag_sym x 1 direction_tag))) up m.

(** aperiodic.cc:126-143, one tile *)
Definition reduce_tile (doll : nat) (st : list sym * list UniAct) (t : tile) : list sym * list UniAct :=
  let '(m, acts) := st in
  let '(w, n, so, e) := t in
  let '(m, cd) := LookupSymId m (cd_sym so e) in
  let '(m, a0) := LookupSymId m (tag_sym w 0 direction_tag) in
  let '(m, b1) := LookupSymId m (tag_sym n 1 direction_tag) in
  let '(m, c1) := LookupSymId m (tag_sym so 1 direction_tag) in
  let '(m, d0) := LookupSymId m (tag_sym e 0 direction_tag) in
  (m, fold_left actset_add [(a0, b1, cd); (doll, cd, c1); (cd, doll, d0); (c1, d0, doll)] acts).
(** [ReduceToActionTiles], aperiodic.cc:97-146; the actions and the domain size. *)
Definition ReduceToActionTiles (tiles : list tile) : list UniAct * nat :=
  let '(m, doll) := LookupSymId [] doll_sym in
  let m := reserve_low_ids m tiles in
  let '(m, acts) := fold_left (reduce_tile doll) tiles (m, []) in
  (acts, length m).

(** The macros of aperiodic.cc:200-204 *)
Definition ReductionTile (x y z : nat) : list UniAct := [(x, y, z); (y, x, z)].
Definition ReductionRow (t u v w x y z : nat) : list UniAct :=
  ReductionTile t u v ++ ReductionTile v w x ++ ReductionTile x y z.
(** aperiodic.cc:186-213, one tile *)
Definition commute_tile (id00 id11 hash doll : nat) (st : list sym * list UniAct) (t : tile) : list sym * list UniAct :=
  let '(m, acts) := st in
  let '(a, b, c, d) := t in
  let '(m, cd) := LookupSymId m (cd_sym c d) in
  let '(m, a0) := LookupSymId m (tag_sym a 0 direction_tag) in
  let '(m, d0) := LookupSymId m (tag_sym d 0 direction_tag) in
  let '(m, d00) := LookupSymId m (tag_sym d 0 double_direction_tag) in
  let '(m, b1) := LookupSymId m (tag_sym b 1 direction_tag) in
  let '(m, c1) := LookupSymId m (tag_sym c 1 direction_tag) in
  let '(m, c11) := LookupSymId m (tag_sym c 1 double_direction_tag) in
  (m, fold_left actset_add
        (ReductionRow a0 b1 cd id00 d00 doll d0 ++
         ReductionRow id11 cd c11 d00 hash d0 id11 ++
         ReductionRow doll c11 c1 hash id00 id11 doll) acts).
(** [ReduceToCommutativeTiles], aperiodic.cc:169-217 *)
Definition ReduceToCommutativeTiles (tiles : list tile) : list UniAct * nat :=
  let '(m, id00) := LookupSymId [] (tag_sym 0 0 special_tag) in
  let '(m, id11) := LookupSymId m (tag_sym 1 0 special_tag) in
  let '(m, hash) := LookupSymId m (tag_sym 3 0 special_tag) in
  let '(m, doll) := LookupSymId m (tag_sym 2 0 special_tag) in
  let '(m, acts) := fold_left (commute_tile id00 id11 hash doll) tiles (m, []) in
  (acts, length m).

Definition guard_in (g : nat * nat) (gs : list (nat * nat)) : bool :=
  existsb (fun h => (fst h =? fst g) && (snd h =? snd g)) gs.
(** aperiodic.cc:235-243: the guards, or nothing when one comes twice. *)
Fixpoint collect_guards (acts : list UniAct) (gs : list (nat * nat)) : option (list (nat * nat)) :=
  match acts with
  | [] => Some gs
  | (a, b, c) :: acts' => if guard_in (a, b) gs then None else collect_guards acts' ((a, b) :: gs)
  end.
(** [check_constraints], aperiodic.cc:220-262 *)
Definition check_constraints (acts : list UniAct) (commutative : bool) : bool :=
  match collect_guards acts [] with
  | None => false
  | Some gs =>
      forallb (fun act : UniAct => let '(a, b, c) := act in
        negb (guard_in (a, c) gs) && negb (guard_in (c, b) gs) &&
        (negb commutative || existsb (act_eqb (b, a, c)) acts)) acts
  end.

(** [tilings_and_patterns_aperiodic_uniring], unifile.cc:519-563 *)
Definition tilings_and_patterns_aperiodic_uniring : list UniAct * nat :=
  ([(0, 13, 8); (0, 14, 10); (0, 15, 12); (0, 16, 12); (0, 17, 9); (0, 18, 8); (0, 19, 10); (0, 20, 10);
    (0, 21, 10); (0, 22, 7); (0, 23, 11); (0, 24, 11); (0, 25, 7); (0, 26, 7); (0, 27, 9); (0, 28, 9);
    (1, 7, 13); (1, 11, 14); (2, 9, 15); (2, 10, 16); (2, 11, 17);
    (3, 8, 18); (3, 9, 19); (3, 10, 20); (3, 12, 21); (4, 8, 22); (4, 9, 23); (4, 10, 24);
    (5, 7, 25); (5, 8, 26); (6, 9, 27); (6, 12, 28);
    (7, 3, 0); (7, 4, 0); (7, 6, 0); (8, 2, 0); (8, 6, 0); (9, 1, 0); (9, 3, 0); (9, 4, 0);
    (10, 1, 0); (10, 3, 0); (10, 4, 0); (10, 5, 0); (11, 4, 0); (11, 5, 0); (12, 1, 0); (12, 2, 0);
    (13, 0, 2); (14, 0, 1); (15, 0, 2); (16, 0, 1); (17, 0, 1); (18, 0, 6); (19, 0, 4); (20, 0, 5);
    (21, 0, 3); (22, 0, 6); (23, 0, 4); (24, 0, 5); (25, 0, 4); (26, 0, 3); (27, 0, 4); (28, 0, 3)], 29).
