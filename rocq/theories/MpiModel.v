(** Model of how the processes of an MPI run agree on who writes the result,
    /repo/src/main-mpi.cc:336-361, and of the verdict on several files,
    /repo/src/search.cc:781-791 with 649-699 (multi_verify_stabilization) and
    /repo/src/main.cc:62-69.

    Simplified: MPI_Allreduce is the maximum or minimum over all processes; int
    does not overflow.  Of the verification of a file only its outcome is kept. *)
From Coq Require Import List ZArith Bool.
Import ListNotations.
Local Open Scope Z_scope.

(** What a process has at the end: [Some sum] if solution_found, with its
    solution_nlayers_sum. *)
Notation local := (option nat).

(** MPI_Allreduce with MPI_MAX and MPI_MIN; there is at least one process. *)
Definition all_max (l : list Z) : Z := match l with [] => 0 | x :: r => fold_right Z.max x r end.
Definition all_min (l : list Z) : Z := match l with [] => 0 | x :: r => fold_right Z.min x r end.

(** main-mpi.cc:338: send_nlayers. *)
Definition sent (r : local) : Z := match r with Some s => Z.of_nat s | None => -1 end.
(** 343-344. *)
Definition sent_again (top : Z) (r : local) : Z := match r with Some _ => sent r | None => top + 1 end.
(** 354: send_pc. *)
Definition sent_pc (n : nat) (low : Z) (pc : nat) (x : Z) : Z := if x =? low then Z.of_nat pc else Z.of_nat n.

(** ret_pc, the same in every process. *)
Definition chosen (rs : list local) : Z :=
  let top := all_max (map sent rs) in
  let again := map (sent_again top) rs in
  let low := all_min again in
  if low =? 0 then -1
  else all_min (map (fun p => sent_pc (length rs) low (fst p) (snd p)) (combine (seq 0 (length rs)) again)).

(** main-mpi.cc:395: the process that writes; 415: "No solution found". *)
Definition writes (rs : list local) (pc : nat) : bool := chosen rs =? Z.of_nat pc.
Definition says_none (rs : list local) : bool := chosen rs <? 0.

(** Verification of several files: what one of them gives. *)
Inductive file_outcome := Unreadable | Stabilizing | NotStabilizing.
(** search.cc:781-791, solution_found at the end; [order] is the order in which the
    threads finish the files. *)
Definition verify_files (order : list file_outcome) : bool :=
  fold_left (fun found r => match r with Stabilizing => true | _ => found end) order false.
