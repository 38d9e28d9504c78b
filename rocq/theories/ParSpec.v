(** Vocabulary for the parallel search: what a schedule is, and when the search
    is over.  Of the model only the record of the shared state is used. *)
From Coq Require Import List Arith Bool.
From Verif Require Import SearchModel ParModel.
Import ListNotations.

(** Every pick is a candidate of the level, ... *)
Definition picks_candidates (pick : nat -> node -> option nat) : Prop :=
  forall t nd a, pick t nd = Some a -> exists p, In p (parts nd) /\ In a (p_cands p).
(** ... and there is a pick when there is a candidate. *)
Definition picks_if_any (pick : nat -> node -> option nat) : Prop :=
  forall t nd, (exists p, In p (parts nd) /\ p_cands p <> []) -> pick t nd <> None.

(** A schedule: any sequence of steps of threads, in any order, and of signals;
    the runs of the search in it pick candidates. *)
Definition schedule (evs : list event) : Prop :=
  forall i fuel pick, In (Move i fuel pick) evs -> picks_candidates pick.
Definition eager (evs : list event) : Prop :=
  forall i fuel pick, In (Move i fuel pick) evs -> picks_if_any pick.

(** All threads have left the loop. *)
Definition over (g : shared) : Prop := forall t, In t (g_threads g) -> t_phase t = Gone.
