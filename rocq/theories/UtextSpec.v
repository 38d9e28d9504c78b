(** Vocabulary for the text forms of a ring protocol. *)
From Coq Require Import List Arith.
From Verif Require Import UniSpec UniModel WangSpec.
Import ListNotations.

(** All values are in the domain. *)
Definition acts_below (M : nat) (acts : list UniAct) : Prop := forall a b c, In (a, b, c) acts -> a < M /\ b < M /\ c < M.
(** The smallest such domain. *)
Definition smallest_domain (M : nat) (acts : list UniAct) : Prop := acts_below M acts /\ forall M', acts_below M' acts -> M <= M'.
Definition same_actions (l l' : list UniAct) : Prop := forall a b c, In (a, b, c) l <-> In (a, b, c) l'.
