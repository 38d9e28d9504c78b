(** Vocabulary for unidirectional rings of processes.  Nothing here refers to the checks. *)
From Coq Require Import List Arith Bool.
From Verif Require Import FmlaModel FmlaSpec ReachSpec.
Import ListNotations.

Section Spec.
Variable ds : list nat.
Variable ps : list proc.

(** A step of the system: some process acts. *)
Definition system_step (s t : list nat) : Prop :=
  ok ds s /\ ok ds t /\ exists p, In p ps /\ proc_step ds p s t.
Definition can_act (p : proc) (s : list nat) : Prop := exists t, ok ds t /\ proc_step ds p s t.

(** A process has its turn: it acts if it can. *)
Definition turned (p : proc) (s t : list nat) : Prop := proc_step ds p s t \/ (t = s /\ ~ can_act p s).
(** The given processes have their turns one after the other. *)
Fixpoint swept (qs : list proc) (s t : list nat) : Prop :=
  match qs with
  | [] => s = t
  | p :: qs' => exists u, ok ds u /\ turned p s u /\ swept qs' u t
  end.
(** A round: all processes, the last one first. *)
Definition round (s t : list nat) : Prop := swept (rev ps) s t.

(** The system is a unidirectional ring: there is one process per variable; it writes that variable, and what it
    does depends only on that variable and on its predecessor in the ring. *)
Definition before (i : nat) : nat := match i with 0 => length ds - 1 | S j => j end.
Definition reads_before (i : nat) (p : proc) : Prop :=
  wvbls p = [i] /\
  forall s t s' t', ok ds s -> ok ds t -> ok ds s' -> ok ds t' ->
    nth i s 0 = nth i s' 0 -> nth (before i) s 0 = nth (before i) s' 0 -> nth i t 0 = nth i t' 0 ->
    agree_off ds [i] s' t' -> proc_step ds p s t -> proc_step ds p s' t'.
Definition ring : Prop :=
  length ps = length ds /\ forall i p, nth_error ps i = Some p -> reads_before i p.
(** The same with the direction turned round. *)
Definition after (i : nat) : nat := if S i =? length ds then 0 else S i.
Definition reads_after (i : nat) (p : proc) : Prop :=
  wvbls p = [i] /\
  forall s t s' t', ok ds s -> ok ds t -> ok ds s' -> ok ds t' ->
    nth i s 0 = nth i s' 0 -> nth (after i) s 0 = nth (after i) s' 0 -> nth i t 0 = nth i t' 0 ->
    agree_off ds [i] s' t' -> proc_step ds p s t -> proc_step ds p s' t'.
Definition turned_ring : Prop :=
  length ps = length ds /\ forall i p, nth_error ps i = Some p -> reads_after i p.

(** No process can act twice in a row. *)
Definition self_disabling : Prop :=
  forall p s t, In p ps -> ok ds s -> ok ds t -> proc_step ds p s t -> ~ can_act p t.
(** A process has at most one thing to do. *)
Definition deterministic : Prop :=
  forall p s t u, In p ps -> ok ds s -> ok ds t -> ok ds u -> proc_step ds p s t -> proc_step ds p s u -> t = u.

(** The set of states is given by a formula over the current state and cannot be left. *)
Definition closed_set (A : fmla) : Prop :=
  state_fmla ds A /\ forall s t, holds A s -> system_step s t -> holds A t.
Definition in_set (assumed : option fmla) (s : list nat) : Prop :=
  match assumed with Some A => holds A s | None => True end.
Definition closed_option (assumed : option fmla) : Prop :=
  match assumed with Some A => closed_set A | None => True end.
(** Where the rounds start: some process can act, and the values that some process has written may have been the
    result of its acting (the other variables are not looked at). *)
Definition starting (assumed : option fmla) (s : list nat) : Prop :=
  ok ds s /\ (exists t, system_step s t) /\ (exists p u, In p ps /\ ok ds u /\ FmlaSpec.steps (xn p) u s) /\ in_set assumed s.
(** s lies on a cycle of steps. *)
Definition cyclic (s : list nat) : Prop := on_cycle (list nat) system_step s.
End Spec.
