(** Vocabulary for transition systems: executions, reachability and cycles.
    Nothing here refers to the model of the code. *)
From Coq Require Import List Arith.
Import ListNotations.

Section Sys.
Variable St : Type.
Variable R : St -> St -> Prop.

(** [run f n]: f 0, f 1, ..., f n is an execution of n steps. *)
Definition run (f : nat -> St) (n : nat) : Prop := forall i, i < n -> R (f i) (f (S i)).
Definition infinite_run (f : nat -> St) : Prop := forall i, R (f i) (f (S i)).

(** t can be reached from s in exactly n steps. *)
Definition steps (n : nat) (s t : St) : Prop := exists f, f 0 = s /\ f n = t /\ run f n.
(** ... in any number of steps; in at least one. *)
Definition reaches (s t : St) : Prop := exists n, steps n s t.
Definition on_cycle (s : St) : Prop := exists n, steps (S n) s s.

Definition deadlocked (s : St) : Prop := forall t, ~ R s t.
Definition closed (A : St -> Prop) : Prop := forall s t, A s -> R s t -> A t.

(** Every cycle that can be reached from A lies in A (true of closed sets). *)
Definition cycle_closed (A : St -> Prop) : Prop :=
  forall s c, A s -> reaches s c -> on_cycle c -> A c.

(** Reachable from a cycle in A and able to reach a cycle. *)
Definition between_cycles (A : St -> Prop) (s : St) : Prop :=
  exists c1 c2, A c1 /\ on_cycle c1 /\ reaches c1 s /\ reaches s c2 /\ on_cycle c2.

(** An execution of n steps that never leaves A. *)
Definition run_in (A : St -> Prop) (f : nat -> St) (n : nat) : Prop :=
  run f n /\ forall i, i <= n -> A (f i).

(** s has an execution of at most j steps inside A that ends in I. *)
Definition near (A I : St -> Prop) (j : nat) (s : St) : Prop :=
  exists n f, n <= j /\ f 0 = s /\ run_in A f n /\ I (f n).

(** The states in which an execution of exactly k steps from A can end. *)
Definition endpoints (A : St -> Prop) (k : nat) (t : St) : Prop :=
  exists s, A s /\ steps k s t.

(** After k steps the set of possible states has stopped changing, or lies in
    the given invariant. *)
Definition settled (A : St -> Prop) (inv : option (St -> Prop)) (k : nat) : Prop :=
  (forall t, endpoints A k t <-> endpoints A (S k) t) \/
  match inv with Some J => forall t, endpoints A k t -> J t | None => False end.

(** Every execution from A, continued as long as possible, ends up in I for
    good: infinite ones have a tail in I, finite ones stop in I. *)
Definition converges (A I : St -> Prop) : Prop :=
  (forall f, A (f 0) -> infinite_run f -> exists n, forall m, n <= m -> I (f m)) /\
  (forall f n, A (f 0) -> run f n -> deadlocked (f n) -> I (f n)).
End Sys.
