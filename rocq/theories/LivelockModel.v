(** Model of the tile-based livelock search of /repo/src/uni/livelock.cc.
    Tables are lists; [ppg t M a b] is the read ppgfun[id_of2(a, b, domsz)]. *)
From Coq Require Import List Arith Bool.
From Verif Require Import FinLib UniModel.
Import ListNotations.

Definition ppg (t : list nat) (M a b : nat) : nat := nth (id_of2 a b M) t M.

(** * Masks, livelock.cc:9-52 *)

(** The values a coordinate takes: [beg]/[inc] of livelock.cc:11-18.  A
    coordinate equal to [domsz] is a wildcard.  "for (x = beg; x < domsz;
    x += domsz)" visits [beg] only, if it is in range. *)
Definition mask_range (m domsz : nat) : list nat :=
  if m =? domsz then seq 0 domsz else if m <? domsz then [m] else [].

(** The three nested loops shared by livelock.cc:20-26 and 41-49. *)
Definition mask_ids (mask_act : UniAct) (domsz : nat) : list nat :=
  let '(ma, mb, mc) := mask_act in
  flat_map (fun a => flat_map (fun b => map (fun c => id_of3 a b c domsz)
     (mask_range mc domsz)) (mask_range mb domsz)) (mask_range ma domsz).

(** [subtract_action_mask], livelock.cc:9-28. *)
Definition subtract_action_mask (mask : list bool) (mask_act : UniAct) (domsz : nat) : list bool :=
  fold_left (fun bt i => upd bt i false) (mask_ids mask_act domsz) mask.

(** [action_mask_overlap_ck], livelock.cc:30-52. *)
Definition action_mask_overlap_ck (mask_act : UniAct) (actset : list bool) (domsz : nat) : bool :=
  existsb (fun i => nth i actset false) (mask_ids mask_act domsz).

(** * Periodic block check *)

(** Inner loop of [fill_livelock_ck], livelock.cc:73-76: given the new west value
    [w] (row[j-1]) and the old row to its right, the new row to its right.
    [None] is "return false" because a cell has no action. *)
Fixpoint fill_row (t : list nat) (M w : nat) (old : list nat) : option (list nat) :=
  match old with
  | [] => Some []
  | b :: old' =>
      let c := ppg t M w b in
      if c =? M then None
      else match fill_row t M c old' with
           | None => None
           | Some r => Some (c :: r)
           end
  end.

(** Outer loop livelock.cc:71-78 over the column values col[1..m]; the test
    row[0] != row[n] compares the west value with the last one. *)
Fixpoint fill_rows (t : list nat) (M : nat) (row : list nat) (cols : list nat)
  : option (list nat) :=
  match cols with
  | [] => Some row
  | w :: cols' =>
      match fill_row t M w (tl row) with
      | None => None
      | Some r => if w =? last (w :: r) 0 then fill_rows t M (w :: r) cols' else None
      end
  end.

(** Equality of two tables of values (the comparison loop livelock.cc:79-81). *)
Fixpoint nat_list_eqb (a b : list nat) : bool :=
  match a, b with
  | [], [] => true
  | x :: a', y :: b' => (x =? y) && nat_list_eqb a' b'
  | _, _ => false
  end.

(** [fill_livelock_ck], livelock.cc:54-83; [top] has n+1 and [col] m+1 values.
    [Some row] is "true" with the final [row]. *)
Definition fill_livelock_ck (t : list nat) (M : nat) (top col : list nat) : option (list nat) :=
  match fill_rows t M top (tl col) with
  | Some row => if nat_list_eqb row top then Some row else None
  | None => None
  end.

(** * Search *)

(** Column construction livelock.cc:107-114: col[0] = diag_val and
    col[i] = ppgfun(old_col[i-1], col[i-1]). *)
Fixpoint build_col (t : list nat) (M d : nat) (old_col : list nat) : option (list nat) :=
  match old_col with
  | [] => Some [d]
  | a :: old' =>
      let c := ppg t M a d in
      if c =? M then None
      else match build_col t M c old' with
           | None => None
           | Some r => Some (d :: r)
           end
  end.

(** First success of a partial function along a list: a loop with "return". *)
Fixpoint find_some {A B} (f : A -> option B) (l : list A) : option B :=
  match l with
  | [] => None
  | x :: l' => match f x with Some y => Some y | None => find_some f l' end
  end.

(** The double loop livelock.cc:117-132 (j and i run from n-1 down to 0).
    [Some (row, col)] is the returned block. *)
Definition find_block (t : list nat) (M n : nat) (bot col : list nat)
  : option (list nat * list nat) :=
  find_some (fun j =>
    if nth j bot 0 =? nth n bot 0 then
      find_some (fun i =>
        if nth i col 0 =? nth n col 0 then
          match fill_livelock_ck t M (skipn j bot) (skipn i col) with
          | Some row => Some (row, skipn i col)
          | None => None
          end
        else None) (rev (seq 0 n))
    else None) (rev (seq 0 n)).

(** [Trit] with the returned row and column attached to [Yes]. *)
Inductive semick_result :=
| RNil
| RMay
| RYes (row col : list nat).

(** The loop over [diag_val], livelock.cc:104-139.  [deeper bot col] stands for
    lines 133-138: "n == limit" sets may_exist, otherwise recurse. *)
Fixpoint diag_loop (t : list nat) (M : nat) (deeper : list nat -> list nat -> semick_result)
    (old_bot old_col : list nat) (ds : list nat) (may : bool) : semick_result :=
  match ds with
  | [] => if may then RMay else RNil
  | d :: ds' =>
      match build_col t M d old_col with
      | None => diag_loop t M deeper old_bot old_col ds' may
      | Some col =>
          let n := length old_bot in
          let bot := old_bot ++ [nth n col 0] in
          match find_block t M n bot col with
          | Some (row, c) => RYes row c
          | None =>
              match deeper bot col with
              | RYes row c => RYes row c
              | RMay => diag_loop t M deeper old_bot old_col ds' true
              | RNil => diag_loop t M deeper old_bot old_col ds' may
              end
          end
      end
  end.

(** [livelock_semick_rec], livelock.cc:85-141.  [k] is limit - n, where n is the
    size of [old_bot]; "n == limit" is k = 0. *)
Fixpoint semick_rec (t : list nat) (M k : nat) (old_bot old_col : list nat) : semick_result :=
  diag_loop t M
    (match k with 0 => fun _ _ => RMay | S k' => semick_rec t M k' end)
    old_bot old_col (seq (hd 0 old_bot) (M - hd 0 old_bot)) false.

(** Removal of a value from the table, livelock.cc:165-174. *)
Definition remove_value (M c : nat) (t : list nat) : list nat :=
  fold_left (fun t a =>
    fold_left (fun t b =>
      let idx := id_of2 a b M in
      if (a =? c) || (b =? c) || (nth idx t M =? c) then upd t idx M else t)
      (seq c (M - c)) t)
    (seq c (M - c)) t.

(** Outer loop of [livelock_semick], livelock.cc:153-175. *)
Fixpoint semick_loop (M k : nat) (cs : list nat) (t : list nat) (may : bool) : semick_result :=
  match cs with
  | [] => if may then RMay else RNil
  | c :: cs' =>
      match semick_rec t M k [c] [c] with
      | RYes row col => RYes row col
      | RMay => semick_loop M k cs' (remove_value M c t) true
      | RNil => semick_loop M k cs' (remove_value M c t) may
      end
  end.

(** [livelock_semick], livelock.cc:145-177, for limit >= 1.  (With limit = 0 the
    test "n == limit" never holds and the code recurses until it succeeds or
    fails; every caller passes a positive limit.  That case is not modelled:
    here limit 0 behaves like limit 1.) *)
Definition livelock_semick (limit : nat) (t : list nat) (M : nat) : semick_result :=
  semick_loop M (limit - 1) (seq 0 M) t false.
