(** Model of the pictures of local invariants, oput_graphviz in /repo/src/biring.cc. *)
From Coq Require Import List Arith Bool.
From Verif Require Import Radix BiringModel BiringEnumModel.
Import ListNotations.

Section Picture.
Variable domsz : nat.
Definition tup := (nat * nat)%type.
Definition elem_ck (cache : list tup) (t : tup) : bool := existsb (fun u => (fst u =? fst t) && (snd u =? snd t)) cache.

(** The picture with the option of pairs, biring.cc:741-765: its nodes and its arrows. *)
Definition pair_nodes : list nat := seq 0 domsz.
Fixpoint pair_arrows_loop (idxs : list nat) (cache : list tup) : list (nat * nat) :=
  match idxs with
  | [] => []
  | e :: r =>
      let '(a, b, _) := pc_config_of_enum_idx domsz e in
      if elem_ck cache (a, b) then pair_arrows_loop r cache
      else (a, b) :: pair_arrows_loop r ((a, b) :: cache)
  end.
Definition pair_arrows (set : bits) : list (nat * nat) := pair_arrows_loop (members set) [].

(** The nodes of the other picture, biring.cc:767-783 (with NiceLooking, which is
    defined): config_a_b for each view. *)
Definition nodes (set : bits) : list tup :=
  map (fun e => let '(a, b, _) := pc_config_of_enum_idx domsz e in (a, b)) (members set).

(** Its arrows, biring.cc:785-811: the inner loop with its cache, and the outer one. *)
Fixpoint arrows_from (src : tup) (conts : list nat) (cache : list tup) : list (tup * tup) :=
  match conts with
  | [] => []
  | f :: r =>
      let '(a, b, _) := pc_config_of_enum_idx domsz f in
      if elem_ck cache (a, b) then arrows_from src r cache
      else (src, (a, b)) :: arrows_from src r ((a, b) :: cache)
  end.
Definition arrows (set : bits) : list (tup * tup) :=
  flat_map (fun e => let '(a, b, _) := pc_config_of_enum_idx domsz e in
    arrows_from (a, b) (continuations domsz e set) []) (members set).
End Picture.
