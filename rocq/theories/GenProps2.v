(** Property C76 for four values; the search is computed here. *)
From Coq Require Import List Arith Lia.
From Verif Require Import UniModel UniSpec LivelockModel LivelockSpec LivelockProofs LivelockProofs3 LivelockProofs4 GenModel GenSpec GenProps.
Import ListNotations.

(** Four values: limit 9, and therefore also the default limit 10. *)
Theorem C76_four_values_decided :
  forall t, table_ok 4 t -> self_disabling (table_protocol 4 t) ->
    ((exists N, livelock_on (table_protocol 4 t) 4 N) <-> exists row col, livelock_semick 9 t 4 = RYes row col).
Proof. apply (C76_limit_decides 4 9 []); [lia|lia|]. vm_compute. reflexivity. Qed.
Print Assumptions C76_four_values_decided.

(** The limit 8 is not enough. *)
Theorem C76_four_values_limit_is_tight :
  exists t N, table_ok 4 t /\ self_disabling (table_protocol 4 t) /\ livelock_on (table_protocol 4 t) 4 N /\
    livelock_semick 8 t 4 = RMay.
Proof.
  exists [1; 4; 3; 4; 4; 2; 4; 0; 2; 3; 4; 4; 4; 4; 0; 0].
  set (t := [1; 4; 3; 4; 4; 2; 4; 0; 2; 3; 4; 4; 4; 4; 0; 0]).
  assert (Ok : table_ok 4 t) by (split; [reflexivity|unfold t; repeat (constructor; [lia|]); constructor]).
  assert (E : exists row col, livelock_semick 9 t 4 = RYes row col) by (vm_compute; eauto).
  destruct E as (row & col & E). apply livelock_semick_yes in E; auto. destruct E as [_ H].
  destruct (H 0) as (N & _ & HN). exists N. split; [exact Ok|]. split; [|split; [exact HN|vm_compute; reflexivity]].
  intros a b c d (Ha & Hb & Hc & E1) (_ & _ & Hd & E2).
  destruct a as [|[|[|[|a]]]]; try lia; destruct b as [|[|[|[|b]]]]; try lia; simpl in E1; injection E1 as <-; try lia;
    simpl in E2; injection E2 as <-; lia.
Qed.
Print Assumptions C76_four_values_limit_is_tight.

(** Three or four values: the limit used when none is given decides livelocks. *)
Theorem C76_default_limit_decides :
  forall o, domsz o = 3 \/ domsz o = 4 -> max_period o = 0 ->
  forall t, table_ok (domsz o) t -> self_disabling (table_protocol (domsz o) t) ->
    ((exists N, livelock_on (table_protocol (domsz o) t) (domsz o) N) <->
     exists row col, livelock_semick (max_period (commit_domsz o)) t (domsz o) = RYes row col).
Proof.
  intros o [M|M] Z; cbn [max_period commit_domsz]; rewrite Z, M; cbn [Nat.eqb Nat.mul Nat.add].
  - apply (C76_limit_decides 3 8 []); [lia|lia|]. vm_compute. reflexivity.
  - intros t Ht Hs. split.
    + intros H. apply (C76_four_values_decided t Ht Hs) in H. destruct H as (row & col & E).
      destruct (livelock_semick_yes_len 9 t 4 row col) as (L1 & L2); [lia|exact E|].
      apply (livelock_semick_complete 10 t 4 row col Ht); [|lia|lia]. apply (livelock_semick_yes 9 t 4); auto.
    + intros (row & col & E). apply livelock_semick_yes in E; auto. destruct E as (_ & E).
      destruct (E 0) as (N & _ & HN). exists N. auto.
Qed.
Print Assumptions C76_default_limit_decides.
