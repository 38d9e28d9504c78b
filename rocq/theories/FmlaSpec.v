(** Specification vocabulary for the formula layer: states are lists of values,
    a state set is read through its current-state copy and a transition
    relation through its current- and next-state copies. *)
From Coq Require Import List Arith Bool.
From Verif Require Import FmlaModel.
Import ListNotations.

Section Spec.
Variable doms : list nat.

(** A state gives each variable a value in its domain. *)
Definition ok (s : list nat) : Prop := Forall2 lt s doms.

(** The meaning of a formula at auxiliary state a, next state i, current p. *)
Definition meaning (g : fmla) (a i p : list nat) : Prop := eval g (join a i p) = true.

(** State s is in the set denoted by g. *)
Definition holds (g : fmla) (s : list nat) : Prop := meaning g s s s.
(** The relation denoted by g has a step from s to t. *)
Definition steps (g : fmla) (s t : list nat) : Prop := meaning g s t s.

(** g only constrains the current state. *)
Definition state_fmla (g : fmla) : Prop :=
  forall a i a' i' p, ok a -> ok i -> ok a' -> ok i' -> ok p ->
  (meaning g a i p <-> meaning g a' i' p).
(** g only constrains the current and the next state. *)
Definition trans_fmla (g : fmla) : Prop :=
  forall a a' i p, ok a -> ok a' -> ok i -> ok p -> (meaning g a i p <-> meaning g a' i p).

(** Same meaning, whatever the representation. *)
Definition same (g h : fmla) : Prop :=
  forall a i p, ok a -> ok i -> ok p -> (meaning g a i p <-> meaning h a i p).

(** s and t give the same value to every variable outside l. *)
Definition agree_off (l : list nat) (s t : list nat) : Prop :=
  forall k, k < length doms -> ~ In k l -> nth k s 0 = nth k t 0.
(** g does not depend on the next value of the variables outside l. *)
Definition writes_only (l : list nat) (g : fmla) : Prop :=
  forall a i i' p, ok a -> ok i -> ok i' -> ok p ->
  (forall k, In k l -> nth k i 0 = nth k i' 0) -> (meaning g a i p <-> meaning g a i' p).

(** s' is s after replacing the value of each variable of [olds] by the value of
    the corresponding variable of [news]. *)
Definition renamed (news olds : list nat) (s s' : list nat) : Prop :=
  (forall j, j < length olds -> nth (nth j olds 0) s' 0 = nth (nth j news 0) s 0) /\ agree_off olds s' s.

(** Every variable has at least one value. *)
Definition inhabited : Prop := Forall (fun d => 1 <= d) doms.
(** Known variable ids. *)
Definition wf_ids (l : list nat) : Prop := Forall (fun v => v < length doms) l.

(** The relation is the built-in constant true, and the set is an empty set
    that is not the built-in constant false. *)
Definition const_true_on_empty (X Q : fmla) : Prop :=
  X = Cst true /\ (exists q, Q = Mdd q) /\ forall s, ok s -> ~ holds Q s.

(** A process whose transition formula reads the current state and constrains
    the next value of its written variables only, and whose mask says that the
    other variables keep their value. *)
Definition proc_ok (p : proc) : Prop :=
  wf_ids (wvbls p) /\ trans_fmla (xn p) /\ writes_only (wvbls p) (xn p) /\
  forall a i q, ok a -> ok i -> ok q -> (meaning (mask p) a i q <-> agree_off (wvbls p) q i).
(** A step of the process in the whole system: it acts and the variables it
    does not write keep their value. *)
Definition proc_step (p : proc) (s t : list nat) : Prop := steps (xn p) s t /\ agree_off (wvbls p) s t.

End Spec.

(** Lexicographic order on value lists of equal length. *)
Inductive lex_le : list nat -> list nat -> Prop :=
| lex_nil : lex_le [] []
| lex_lt : forall x y l l', x < y -> length l = length l' -> lex_le (x :: l) (y :: l')
| lex_eq : forall x l l', lex_le l l' -> lex_le (x :: l) (x :: l').

(** The values of the listed variables in a state. *)
Definition values (ids : list nat) (s : list nat) : list nat := map (fun v => nth v s 0) ids.
