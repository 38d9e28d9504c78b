(** The picture of who reads from whom.

    Models
      - /repo/src/graphviz.cc:8-54   oput_graphviz_file, without the labels and the layout.
    A map from numbers to sets is the list of its pairs; a set is walked through in ascending order. *)
From Coq Require Import List Arith Bool.
From Verif Require Import FinLib Radix FmlaModel ActModel NetModel.
Import ListNotations.

(** A line "Pi -> Pj", or "Pi -> Pj [dir="both"]" *)
Inductive edge := Arc (i j : nat) | Both (i j : nat).

Section Graph.
Variable N : network.
Definition pair_in (x : nat * nat) (l : list (nat * nat)) : bool := existsb (fun y => (fst x =? fst y) && (snd x =? snd y)) l.
Definition members (l : list (nat * nat)) (k : nat) : list nat := filter (fun i => pair_in (k, i) l) (seq 0 (length (pcs N))).
(** graphviz.cc:14-22: own_map, the processes that write a variable *)
Definition own_map : list (nat * nat) :=
  flat_map (fun ip => map (fun j => (wvbl N (snd ip) j, fst ip)) (seq 0 (nw (kind_of N (snd ip))))) (combine (seq 0 (length (pcs N))) (pcs N)).
(** graphviz.cc:24-37: pc_read_map, the processes that read from a process *)
Definition pc_read_map : list (nat * nat) :=
  flat_map (fun ip => flat_map (fun v => flat_map (fun k => if k =? fst ip then [] else [(k, fst ip)]) (members own_map v)) (p_vbls (snd ip)))
    (combine (seq 0 (length (pcs N))) (pcs N)).
(** graphviz.cc:38-51 *)
Definition edges : list edge :=
  flat_map (fun i =>
      flat_map (fun j => if pair_in (j, i) pc_read_map then (if i <? j then [Both i j] else []) else [Arc i j]) (members pc_read_map i))
    (seq 0 (length (pcs N))).
(** graphviz.cc:15-17 *)
Definition nodes : list nat := seq 0 (length (pcs N)).
End Graph.
