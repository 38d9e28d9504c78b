(** Integer expressions over the variables of a network (pfmla.hh:455-543, pfmla.cc:204-455).
    The pointer to the context is dropped: it is set when there is a variable, and there is one
    context.  C [int] is modelled by unbounded integers: the claims hold of runs without overflow
    (which the code leaves undefined). *)
From Coq Require Import List Arith Bool ZArith.
From Verif Require Import Radix FmlaModel.
Import ListNotations.

(** pfmla.hh:466-469.  [i_map] has one value per combination of values of the variables, the last
    variable changing fastest. *)
Record ipf := mkIpf { i_vbls : list nat; i_doms : list nat; i_map : list Z }.

Section Int.
Variable ds : list nat.

(** pfmla.hh:473-482 *)
Definition of_vbl (v : nat) : ipf := mkIpf [v] [nth v ds 0] (map Z.of_nat (seq 0 (nth v ds 0))).
(** pfmla.hh:484-488 *)
Definition of_int (x : Z) : ipf := mkIpf [] [] [x].
(** pfmla.hh:490-498 with mul = 1 and add = 0, its only use: the numbers below n *)
Definition of_range (n : nat) : ipf := mkIpf [] [n] (map Z.of_nat (seq 0 n)).

(** Table::add_domain of the cx library (not in /repo), as pfmla.cc:217-219 and 252-255 use it:
    every entry is repeated once per value of a new last variable. *)
Definition add_domain (n : nat) (l : list Z) : list Z := flat_map (fun x => repeat x n) l.

Fixpoint position (v : nat) (l : list nat) : option nat :=
  match l with [] => None | y :: l' => if v =? y then Some 0 else option_map S (position v l') end.
(** pfmla.cc:233-248: the variables of b are added to a; where each of them is in a *)
Fixpoint merge_vbls (bv bd : list nat) (a : ipf) : ipf * list nat :=
  match bv, bd with
  | v :: bv', d :: bd' =>
      match position v (i_vbls a) with
      | Some j => let (a', m) := merge_vbls bv' bd' a in (a', j :: m)
      | None =>
          let (a', m) := merge_vbls bv' bd'
            (mkIpf (i_vbls a ++ [v]) (i_doms a ++ [d]) (add_domain d (i_map a))) in
          (a', length (i_vbls a) :: m)
      end
  | _, _ => (a, [])
  end.
(** pfmla.cc:204-249.  None: a Claim fails. *)
Definition intmap_init_op (a b : ipf) : option (ipf * list nat) :=
  if (length (i_map a) =? 0) || (length (i_map b) =? 0) then None
  else if (length (i_vbls a) =? 0) && (length (i_vbls b) =? 0) then
    Some (mkIpf (i_vbls a) (i_doms a ++ i_doms b) (add_domain (length (i_map b)) (i_map a)), [])
  else if (length (i_vbls a) =? length (i_doms a)) && (length (i_vbls b) =? length (i_doms b)) then
    Some (merge_vbls (i_vbls b) (i_doms b) a)
  else None.
(** pfmla.cc:251-271 *)
Definition coerce_lookup (a b : ipf) (idx : nat) (vbl_map : list nat) : Z :=
  if length (i_vbls a) =? 0 then nth (idx mod length (i_map b)) (i_map b) 0%Z
  else
    let state_a := state_of_index idx (i_doms a) in
    nth (index_of_state (map (fun j => nth j state_a 0) vbl_map) (i_doms b)) (i_map b) 0%Z.
(** pfmla.cc:273-281 *)
Definition negate (a : ipf) : ipf := mkIpf (i_vbls a) (i_doms a) (map Z.opp (i_map a)).

(** pfmla.hh:458-464 *)
Inductive intop := AddOp | SubOp | MulOp | DivOp | ModOp | PowOp | MinOp | MaxOp.
(** The loop of pfmla.cc:325-328: [x] factors [val_a]. *)
Fixpoint pow_loop (val_a : Z) (x : nat) : Z :=
  match x with 0 => 1%Z | S x' => (pow_loop val_a x' * val_a)%Z end.
(** pfmla.cc:298-349, one entry.  Division of C rounds towards zero; umod_int of the cx library
    (not in /repo) is the remainder that is not negative.  None: a Claim fails. *)
Definition op_value (op : intop) (val_a x : Z) : option Z :=
  match op with
  | AddOp => Some (val_a + x)
  | SubOp => Some (val_a - x)
  | MulOp => Some (val_a * x)
  | DivOp => if (x =? 0)%Z then None else Some (Z.quot val_a x)
  | ModOp => if (x <=? 0)%Z then None else Some (Z.modulo val_a x)
  | PowOp => if (x <? 0)%Z then None else Some (pow_loop val_a (Z.to_nat x))
  | MinOp => Some (if (x <? val_a)%Z then x else val_a)
  | MaxOp => Some (if (val_a <? x)%Z then x else val_a)
  end%Z.
Fixpoint all_some (l : list (option Z)) : option (list Z) :=
  match l with
  | [] => Some []
  | Some x :: l' => option_map (cons x) (all_some l')
  | None :: _ => None
  end.
(** pfmla.cc:283-358 *)
Definition defeq_binop (a b : ipf) (op : intop) : option ipf :=
  match intmap_init_op a b with
  | None => None
  | Some (a', m) =>
      option_map (mkIpf (i_vbls a') (i_doms a'))
        (all_some (map (fun idx => op_value op (nth idx (i_map a') 0%Z) (coerce_lookup a' b idx m))
                       (seq 0 (length (i_map a')))))
  end.

(** pfmla.cc:361-392 *)
Definition cmp (a b : ipf) (c_lt c_eq c_gt : bool) : option fmla :=
  if (length (i_vbls a) =? 0) && (length (i_vbls b) =? 0)
     && negb ((length (i_map a) =? 1) && (length (i_map b) =? 1)) then None
  else match intmap_init_op a b with
  | None => None
  | Some (a', m) =>
      Some (fold_left (fun disj idx =>
        let y := nth idx (i_map a') 0%Z in
        let x := coerce_lookup a' b idx m in
        if (c_lt && (y <? x)%Z) || (c_eq && (y =? x)%Z) || (c_gt && (x <? y)%Z)
        then or_PFmla disj (of_state ds (if length (i_vbls a') =? 0 then [] else state_of_index idx (i_doms a')) (i_vbls a'))
        else disj) (seq 0 (length (i_map a'))) (Cst false))
  end.

(** pfmla.cc:402-409: the indices of each value, in the order of the values *)
Definition inverse := list (Z * list nat).
Fixpoint ins (k : Z) (i : nat) (m : inverse) : inverse :=
  match m with
  | [] => [(k, [i])]
  | (k', l) :: m' =>
      if (k <? k')%Z then (k, [i]) :: m else if (k =? k')%Z then (k', l ++ [i]) :: m' else (k', l) :: ins k i m'
  end.
Definition inverse_of (l : list Z) : inverse :=
  fold_left (fun m i => ins (nth i l 0%Z) i m) (seq 0 (length l)) [].
Fixpoint lower_bound (k : Z) (m : inverse) : inverse :=
  match m with [] => [] | (k', l) :: m' => if (k' <? k)%Z then lower_bound k m' else m end.
(** pfmla.cc:429-438 *)
Definition either_img (a : ipf) (idcs : list nat) : fmla :=
  fold_left (fun d i => or_PFmla d (of_img_state ds (state_of_index i (i_doms a)) (i_vbls a))) idcs (Cst false).
Definition either_pre (b : ipf) (idcs : list nat) : fmla :=
  fold_left (fun d i => or_PFmla d (of_state ds (state_of_index i (i_doms b)) (i_vbls b))) idcs (Cst false).
(** pfmla.cc:418-445.  The iterators are the rest of the maps they stand for. *)
Fixpoint img_eq_loop (fuel : nat) (a b : ipf) (inv_a inv_b ita itb : inverse) (disj : fmla) : option fmla :=
  match fuel with
  | 0 => None
  | S fuel' =>
      match ita, itb with
      | (ka, idcs_a) :: ita', (kb, idcs_b) :: itb' =>
          if (ka <? kb)%Z then img_eq_loop fuel' a b inv_a inv_b (lower_bound kb inv_a) itb disj
          else if (kb <? ka)%Z then img_eq_loop fuel' a b inv_a inv_b ita (lower_bound ka inv_b) disj
          else img_eq_loop fuel' a b inv_a inv_b ita' itb'
                 (or_PFmla disj (and_PFmla (either_img a idcs_a) (either_pre b idcs_b)))
      | _, _ => Some disj
      end
  end.
(** pfmla.cc:394-448.  None: a Claim fails, or the code reads or writes outside its tables (line 416
    without any value; line 435 when b has domains without variables, that is, is a range). *)
Definition img_eq (a b : ipf) : option fmla :=
  if length (i_vbls a) =? 0 then cmp a b false true false
  else if negb (length (i_vbls b) =? length (i_doms b)) then None
  else
    let inv_a := inverse_of (i_map a) in
    let inv_b := inverse_of (i_map b) in
    match inv_b with
    | [] => None
    | (kb, _) :: _ =>
        img_eq_loop (S (length inv_a + length inv_b)) a b inv_a inv_b (lower_bound kb inv_a) inv_b (Cst false)
    end.
End Int.
