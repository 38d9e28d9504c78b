(** What it means that actions are numbered alike in two systems of one file. *)
From Coq Require Import String List Arith Bool ZArith.
From Verif Require Import FinLib Radix CmdModel ParseModel AccessModel FmlaModel ActModel ActSpec NetModel ExprModel DeclModel HeadModel SameModel.
Import ListNotations.
Local Open Scope list_scope.
Local Open Scope nat_scope.

(** Two kinds of process that differ in the domains of their variables only *)
Definition like_access (a b : access) : Prop := a_type a = a_type b /\ a_role a = a_role b.
Definition like_kind (a b : pcsymm) : Prop := Forall2 like_access (accs a) (accs b) /\ symms a = symms b.
(** The domain of every access is the same. *)
Definition same_domains (ks ks' : list pcsymm) : Prop :=
  Forall2 (fun a b => map a_dom (accs a) = map a_dom (accs b)) ks ks'.
(** Numbers below the total are the same actions, and the same actions have the same numbers. *)
Definition same_numbers (ks ks' : list pcsymm) : Prop :=
  actions_in ks = actions_in ks' /\
  (forall i, act_of ks i = act_of ks' i) /\ (forall a, id_of ks a = id_of ks' a) /\
  (forall i, representative_action_index ks i = representative_action_index ks' i).
(** How many kinds of process a text defines *)
Definition kind_count (t : ptext) : nat := length (filter (fun e => match e with Kind _ _ => true | General _ => false end) (pt_entries t)).
