(** Model of /repo/src/uni/canonical.cc. *)
From Coq Require Import List Arith Bool.
From Verif Require Import FinLib UniModel Radix.
Import ListNotations.

(** [SwapT( uint, perm_map[i], perm_map[v] )], canonical.cc:54. *)
Definition swap (m : list nat) (i v : nat) : list nat :=
  upd (upd m i (nth v m 0)) v (nth i m 0).

(** The loop canonical.cc:53-55, from position [i]. *)
Fixpoint swaps (i : nat) (vals : list nat) (m : list nat) : list nat :=
  match vals with
  | [] => m
  | v :: vals' => swaps (S i) vals' (swap m i v)
  end.

(** canonical.cc:37-41: the domains 2, 3, ..., domsz, and their product. *)
Definition perm_doms (domsz : nat) : list nat := seq 2 (domsz - 1).

(** canonical.cc:49-55: the map built for one value of perm_idx. *)
Definition perm_map (domsz perm_idx : nat) : list nat :=
  swaps 0 (state_of_index perm_idx (perm_doms domsz)) (seq 0 domsz).

(** [permute_pc_act], canonical.cc:19-32. *)
Definition permute_pc_act (choice : list nat) (m : list nat) (domsz : nat) : list nat :=
  fold_left (fun ppgfun a =>
    fold_left (fun ppgfun b =>
      let c := nth (id_of2 a b domsz) choice domsz in
      if c <? domsz then upd ppgfun (id_of2 (nth a m 0) (nth b m 0) domsz) (nth c m 0) else ppgfun)
      (seq 0 domsz) ppgfun)
    (seq 0 domsz) (repeat domsz (domsz * domsz)).

(** [operator<] of cx/table.hh (external) on tables of equal size: lexicographic. *)
Fixpoint lex_ltb (a b : list nat) : bool :=
  match a, b with
  | x :: a', y :: b' => (x <? y) || ((x =? y) && lex_ltb a' b')
  | [], _ :: _ => true
  | _, [] => false
  end.

(** [canonical_ck], canonical.cc:34-67, for domsz >= 1. *)
Definition canonical_ck (choice : list nat) (domsz : nat) : bool :=
  forallb (fun perm_idx => negb (lex_ltb (permute_pc_act choice (perm_map domsz perm_idx) domsz) choice))
    (seq 0 (prod (perm_doms domsz))).
