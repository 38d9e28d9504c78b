(** Vocabulary for the rankings: how many actions of a list are enabled in a
    state, and what a correct ranking of deadlocks is. *)
From Coq Require Import List Arith Sorted.
From Verif Require Import ReachSpec RankModel.
Import ListNotations.

Section RankSpec.
Variable St : Type.
Variable guard : nat -> St -> bool.

(** The number of actions of [acts] enabled in [s]. *)
Definition enabled_count (acts : list nat) (s : St) : nat :=
  length (filter (fun a => guard a s) acts).

(** [d] ranks the states of [dead] by the number of candidates enabled in them:
    rank [i] holds the states with exactly [i], and lists, in increasing order,
    the candidates enabled in some state of the rank.  Ranks past the end are
    empty. *)
Record ranking (dead : St -> Prop) (cands : list nat) (d : list (dlset St)) : Prop := {
  rk_states : forall i s,
    dl_states St (nth i d (dl0 St)) s = true <-> dead s /\ enabled_count cands s = i;
  rk_cands : forall i a,
    In a (dl_cands St (nth i d (dl0 St))) <->
    In a cands /\ exists s, dead s /\ enabled_count cands s = i /\ guard a s = true;
  rk_order : forall i, StronglySorted lt (dl_cands St (nth i d (dl0 St)))
}.

(** The distance from [s] to the set [A] under the relation [R] is [n]. *)
Definition distance (R : St -> St -> Prop) (A : St -> Prop) (s : St) (n : nat) : Prop :=
  (exists t, A t /\ steps St R n s t) /\
  (forall m t, m < n -> A t -> ~ steps St R m s t).
End RankSpec.
