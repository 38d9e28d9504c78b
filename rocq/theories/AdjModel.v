(** Model of the adjacency list /repo/src/uni/adjlist.hh.  Destinations are
    natural numbers (the only instance used is AdjList<uint>). *)
From Coq Require Import List Arith Bool.
From Verif Require Import FinLib.
Import ListNotations.

(** adjlist.hh:15-24.  A node is (offset, degree); [acommitted] is
    "nodes[0].offset != SIZE_MAX". *)
Record adjlist := mkAdj { anodes : list (nat * nat); acommitted : bool; aarcs : list nat }.

(** Constructor, adjlist.hh:68-78 and 19. *)
Definition adj_new (n : nat) : adjlist := mkAdj (repeat (0, 0) n) false [].

(** adjlist.hh:49-51. *)
Definition adj_degree (g : adjlist) (x : nat) : nat := snd (nth x (anodes g) (0, 0)).

(** adjlist.hh:57-59. *)
Definition adj_arc (g : adjlist) (x i : nat) : nat :=
  nth (fst (nth x (anodes g) (0, 0)) + i) (aarcs g) 0.

(** What a client sees of a node: degree() and arc_from() for each position. *)
Definition adj_arcs (g : adjlist) (x : nat) : list nat :=
  map (adj_arc g x) (seq 0 (adj_degree g x)).

Definition set_degree (g : adjlist) (x d : nat) : adjlist :=
  mkAdj (upd (anodes g) x (fst (nth x (anodes g) (0, 0)), d)) (acommitted g) (aarcs g).

(** [add_arc], adjlist.hh:100-108.  [None] is a write outside the arc array. *)
Definition adj_add (g : adjlist) (x y : nat) : option adjlist :=
  let '(off, deg) := nth x (anodes g) (0, 0) in
  if acommitted g then
    if off + deg <? length (aarcs g)
    then Some (set_degree (mkAdj (anodes g) true (upd (aarcs g) (off + deg) y)) x (deg + 1))
    else None
  else Some (set_degree g x (deg + 1)).

(** The loop adjlist.hh:90-93: each offset is the previous end index, each
    degree is reset after it has been used. *)
Fixpoint commit_nodes (off : nat) (ns : list (nat * nat)) : list (nat * nat) :=
  match ns with
  | [] => []
  | (_, d) :: ns' => (off, 0) :: commit_nodes (off + d) ns'
  end.
Fixpoint total_degree (ns : list (nat * nat)) : nat :=
  match ns with [] => 0 | (_, d) :: ns' => d + total_degree ns' end.

(** [commit_degrees], adjlist.hh:80-98.  [None] is the failing Claim of line 88.
    The new arc array has unspecified contents; zeros here. *)
Definition adj_commit (g : adjlist) : option adjlist :=
  match anodes g with
  | [] => Some g
  | _ => if acommitted g then None
         else Some (mkAdj (commit_nodes 0 (anodes g)) true (repeat 0 (total_degree (anodes g))))
  end.

(** [flush], adjlist.hh:39-43. *)
Definition adj_flush (g : adjlist) : adjlist :=
  mkAdj (map (fun od => (fst od, 0)) (anodes g)) (acommitted g) (aarcs g).

(** [del_arcs_from], adjlist.hh:61-63. *)
Definition adj_del_from (g : adjlist) (x : nat) : adjlist := set_degree g x 0.

(** The loop adjlist.hh:117-125 over [count] cells starting at [i]; returns the
    array and the number n of deleted arcs. *)
Fixpoint del_loop (count i n dst : nat) (arcs : list nat) : list nat * nat :=
  match count with
  | 0 => (arcs, n)
  | S count' =>
      if nth i arcs 0 =? dst then del_loop count' (S i) (n + 1) dst arcs
      else if 0 <? n then del_loop count' (S i) n dst (upd arcs (i - n) (nth i arcs 0))
      else del_loop count' (S i) n dst arcs
  end.

(** [del_arc], adjlist.hh:110-126. *)
Definition adj_del (g : adjlist) (x y : nat) : adjlist :=
  let '(off, deg) := nth x (anodes g) (0, 0) in
  let '(arcs, n) := del_loop deg off 0 y (aarcs g) in
  set_degree (mkAdj (anodes g) (acommitted g) arcs) x (deg - n).

(** One pass of additions. *)
Fixpoint adj_add_all (g : adjlist) (l : list (nat * nat)) : option adjlist :=
  match l with
  | [] => Some g
  | (x, y) :: l' => match adj_add g x y with Some g' => adj_add_all g' l' | None => None end
  end.

(** The DoTwice idiom, adjlist.hh:6-9 with livelock.cc:324 and 360: one counting
    pass, commit, then the same additions again (and no second commit). *)
Definition adj_build (n : nat) (l : list (nat * nat)) : option adjlist :=
  match adj_add_all (adj_new n) l with
  | Some g => match adj_commit g with Some g' => adj_add_all g' l | None => None end
  | None => None
  end.
