(** What an integer expression stands for: a value in every state. *)
From Coq Require Import List Arith ZArith.
From Verif Require Import Radix FmlaModel FmlaSpec IntModel.
Import ListNotations.

Section Spec.
Variable ds : list nat.

(** A table over some variables, complete and without duplicates. *)
Record table_ok (x : ipf) : Prop := mkTableOk {
  t_known : Forall (fun v => v < length ds) (i_vbls x);
  t_once : NoDup (i_vbls x);
  t_doms : i_doms x = map (fun v => nth v ds 0) (i_vbls x);
  t_size : length (i_map x) = prod (i_doms x)
}.
(** The entry of the table for the values its variables have in state [s]. *)
Definition entry (x : ipf) (s : list nat) : Z :=
  nth (index_of_state (map (fun v => nth v s 0) (i_vbls x)) (i_doms x)) (i_map x) 0%Z.
Definition represents (x : ipf) (f : list nat -> Z) : Prop :=
  table_ok x /\ forall s, ok ds s -> entry x s = f s.

(** The usual meaning of the operators; [None] where they have none.  Division rounds towards
    zero, the remainder is that of a positive number and never negative. *)
Definition op_means (op : intop) (x y : Z) : option Z :=
  match op with
  | AddOp => Some (x + y)
  | SubOp => Some (x - y)
  | MulOp => Some (x * y)
  | DivOp => if Z.eq_dec y 0 then None else Some (Z.quot x y)
  | ModOp => if Z_lt_dec 0 y then Some (x mod y) else None
  | PowOp => if Z_le_dec 0 y then Some (x ^ y) else None
  | MinOp => Some (Z.min x y)
  | MaxOp => Some (Z.max x y)
  end%Z.
End Spec.
