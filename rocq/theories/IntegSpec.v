(** What a system must be like. *)
From Coq Require Import List Arith Bool.
From Verif Require Import FmlaModel FmlaSpec ActModel ActSpec NetModel NetSpec CandModel.
Import ListNotations.

Section Spec.
Variable S : system.
Notation N := (s_net S).
Notation ds := (vdoms (s_net S)).
(** The variables that belong to the implementation only. *)
Definition puppet (v : nat) : Prop := nth v (vroles N) Direct = Puppet.
(** Variables that are read at random belong to the implementation only. *)
Definition draws_puppets : Prop :=
  forall k a, In k (kinds N) -> In a (accs k) -> a_type a = RandomReadAccess -> a_role a = Puppet.
(** Whatever values the variables of the implementation have, the others can be chosen such that the state is legitimate. *)
Definition legitimate_for_all : Prop :=
  forall s, ok ds s -> exists t, ok ds t /\ (forall v, v < length ds -> puppet v -> nth v t 0 = nth v s 0) /\ holds (s_invariant S) t.
(** A variable that changes by itself, although the specification is about it. *)
Definition stray_draw : Prop := exists v, fickle N v /\ ~ puppet v /\ 2 <= nth v ds 0.
(** Whether a state is legitimate does not depend on variables of the implementation. *)
Definition about_specification : Prop :=
  forall s t, ok ds s -> ok ds t -> (forall v, v < length ds -> ~ puppet v -> nth v t 0 = nth v s 0) -> (holds (s_invariant S) s <-> holds (s_invariant S) t).
End Spec.
