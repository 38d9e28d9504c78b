(** Model of [deadlock_freedom_ck], /repo/src/deadfree.cc:27-158. *)
From Coq Require Import List Arith Bool.
Import ListNotations.

(** deadfree.cc:14-19. *)
Record LCNode := mkNode { legit : bool; x_pd : nat; x_id : nat; x_sc : nat }.

Definition no_node : LCNode := mkNode true 0 0 0.

(** deadfree.cc:52-74 builds one node for each silent local state of the
    representative process, in the (unspecified) order in which the decision
    diagram library picks them.  The model starts from that list. *)
Definition get (nodes : list LCNode) (i : nat) : LCNode := nth i nodes no_node.

(** edges[(a,b)] (deadfree.cc:61-62): the nodes with predecessor value a and
    own value b, in creation order. *)
Definition edges (nodes : list LCNode) (a b : nat) : list nat :=
  filter (fun i => (x_pd (get nodes i) =? a) && (x_id (get nodes i) =? b))
         (seq 0 (length nodes)).

(** deadfree.cc:111-122: walk back through the trace stack (top first). *)
Fixpoint unwind (trace : list LCNode) (term : LCNode) (leg : bool) : bool :=
  match trace with
  | [] => leg
  | tr :: trace' =>
      if (x_pd term =? x_id tr) && (x_id term =? x_sc tr)
      then unwind trace' tr (leg || legit tr)
      else unwind trace' term leg
  end.

Definition mem (x : nat) (l : list nat) : bool := existsb (Nat.eqb x) l.

(** The loop over successors, deadfree.cc:106-146.  [Some b]: the start node was
    met, with the accumulated flag b; the trace is then empty and the remaining
    successors are skipped ([break]). *)
Fixpoint scan (nodes : list LCNode) (sidx : nat) (next visited : list nat)
    (frontier : list (nat * nat)) (trace : list LCNode) (d : nat)
  : list nat * list (nat * nat) * list LCNode * option bool :=
  match next with
  | [] => (visited, frontier, trace, None)
  | n :: next' =>
      if sidx =? n then (visited, frontier, [], Some (unwind trace (get nodes n) false))
      else if mem n visited then scan nodes sidx next' visited frontier trace d
      else scan nodes sidx next' (n :: visited) (frontier ++ [(n, d + 1)]) trace d
  end.

(** The queue loop, deadfree.cc:91-152.  [Some (Some n)]: a deadlock with ring
    size n was printed.  [None]: out of fuel (proved impossible). *)
Fixpoint bfs (fuel : nat) (nodes : list LCNode) (sidx : nat) (visited : list nat)
    (frontier : list (nat * nat)) (trace : list LCNode) : option (option nat) :=
  match fuel with
  | 0 => None
  | S fuel' =>
      match frontier with
      | [] => Some None
      | (t, d) :: frontier' =>
          let tnode := get nodes t in
          let next := edges nodes (x_id tnode) (x_sc tnode) in
          let trace := if length next =? 0 then trace else tnode :: trace in
          let '(visited', frontier'', trace', found) := scan nodes sidx next visited frontier' trace d in
          match found with
          | Some true => Some (Some (d + 1))
          | _ => bfs fuel' nodes sidx visited' frontier'' trace'
          end
      end
  end.

(** deadfree.cc:79-153: the start nodes and the printed ring sizes. *)
Fixpoint check_from (nodes : list LCNode) (starts : list nat) : option (list (nat * nat)) :=
  match starts with
  | [] => Some []
  | s :: starts' =>
      if legit (get nodes s) then check_from nodes starts'
      else
        match bfs (length nodes + 2) nodes s [] [(s, 0)] [] with
        | None => None
        | Some r =>
            match check_from nodes starts' with
            | None => None
            | Some rs => Some (match r with Some n => (s, n) :: rs | None => rs end)
            end
        end
  end.

(** The announcements; the empty list is "The protocol does not have deadlock." *)
Definition deadlock_reports (nodes : list LCNode) : option (list (nat * nat)) :=
  check_from nodes (seq 0 (length nodes)).

(** Reading the node list as a protocol (used in the statements only). *)
Definition triple (n : LCNode) : nat * nat * nat := (x_pd n, x_id n, x_sc n).

(** The silent local states of the node list, and its illegitimate ones. *)
Definition silent_of (nodes : list LCNode) (t : nat * nat * nat) : Prop :=
  exists n, In n nodes /\ triple n = t.
Definition illegit_of (nodes : list LCNode) (t : nat * nat * nat) : Prop :=
  exists n, In n nodes /\ triple n = t /\ legit n = false.
