(** Properties C06-C08 and C10: the tile search for livelocks and action masks. *)
From Coq Require Import List Arith Lia Bool.
From Verif Require Import FinLib UniModel UniSpec UniProofs LivelockModel LivelockSpec
  GridLivelock LiveGrid LivelockProofs LivelockProofs2 LivelockProofs3 LivelockProofs4 LiveTorus.
Import ListNotations.

(** ** C06 *)
Theorem C06_yes_is_a_livelock :
  forall limit t M row col, table_ok M t ->
    livelock_semick limit t M = RYes row col ->
    periodic_block (table_protocol M t) row col /\
    livelocks_on_large_rings (table_protocol M t) M.
Proof. exact livelock_semick_yes. Qed.
Print Assumptions C06_yes_is_a_livelock.

(** Two values; 0,0 -> 1 and 1,1 -> 0. *)
Example C06_example :
  table_ok 2 [1; 2; 2; 0] /\
  exists row col, livelock_semick 4 [1; 2; 2; 0] 2 = RYes row col.
Proof. split; [repeat constructor|]. vm_compute. eauto. Qed.

(** ** C07 *)
Theorem C07_nil_is_livelock_free :
  forall limit t M, table_ok M t ->
    self_disabling (table_protocol M t) ->
    livelock_semick limit t M = RNil ->
    livelock_free (table_protocol M t) M.
Proof. exact livelock_semick_nil. Qed.
Print Assumptions C07_nil_is_livelock_free.

(** ... and therefore every execution is shorter than the number of states. *)
Theorem C07_nil_bounds_executions :
  forall limit t M, table_ok M t ->
    self_disabling (table_protocol M t) ->
    livelock_semick limit t M = RNil ->
    forall n s s', in_domain M s ->
      ring_run (table_protocol M t) n s s' -> n < M ^ length s.
Proof.
  intros limit t M Hok SD H n s s' D R.
  eapply bounded_runs; eauto.
  - intros a b c Habc. apply table_protocol_range in Habc. tauto.
  - eapply livelock_semick_nil; eauto.
Qed.
Print Assumptions C07_nil_bounds_executions.

Example C07_example :
  table_ok 3 [3; 3; 3; 2; 3; 3; 3; 3; 1] /\
  self_disabling (table_protocol 3 [3; 3; 3; 2; 3; 3; 3; 3; 1]) /\
  livelock_semick 5 [3; 3; 3; 2; 3; 3; 3; 3; 1] 3 = RNil.
Proof.
  split; [repeat constructor|]. split; [|vm_compute; reflexivity].
  intros a b c d (Ha & Hb & Hc & E1) (_ & _ & Hd & E2).
  destruct a as [|[|[|a]]]; destruct b as [|[|[|b]]]; simpl in E1; try lia;
    try (injection E1 as <-; lia); injection E1 as <-; simpl in E2; try discriminate; injection E2 as <-; lia.
Qed.

(** The self-disabling hypothesis is necessary: the Nil verdict is wrong for a
    process that can act twice in a row. *)
Theorem C07_not_self_disabling_refuted :
  exists t M, table_ok M t /\ (forall limit, 2 <= limit -> livelock_semick limit t M = RNil) /\
    ~ livelock_free (table_protocol M t) M.
Proof.
  exists [1; 0; 2; 2], 2. split; [repeat constructor|]. split.
  - intros limit HL. apply (livelock_semick_mono 2 limit); [lia|reflexivity].
  - intros H. apply (H 2).
    exists (fun k => if Nat.even k then [0; 0] else [0; 1]). repeat split; auto.
    + repeat constructor.
    + intros k. rewrite Nat.even_succ, <- Nat.negb_even. destruct (Nat.even k); simpl.
      * exists 1, 0, 0, 1. repeat split; auto.
      * exists 1, 0, 1, 0. repeat split; auto.
Qed.
Print Assumptions C07_not_self_disabling_refuted.

(** ** C08 *)
Theorem C08_verdict_stable :
  forall limit limit' t M, limit <= limit' ->
    (livelock_semick limit t M = RNil -> livelock_semick limit' t M = RNil) /\
    ((exists row col, livelock_semick limit t M = RYes row col) ->
     (exists row col, livelock_semick limit' t M = RYes row col)).
Proof. exact livelock_semick_mono. Qed.
Print Assumptions C08_verdict_stable.

(** ** C55 *)
Theorem C55_finds_every_block_within_the_limit :
  forall limit t M row col, table_ok M t ->
    periodic_block (table_protocol M t) row col ->
    length row <= S limit -> length col <= S limit ->
    exists row' col', livelock_semick limit t M = RYes row' col'.
Proof. exact livelock_semick_complete. Qed.
Print Assumptions C55_finds_every_block_within_the_limit.

(** Read the other way round: after Nil or May, every livelock block is larger
    than the limit in one direction. *)
Theorem C55_not_found_bounds_the_block :
  forall limit t M row col, table_ok M t ->
    livelock_semick limit t M = RNil \/ livelock_semick limit t M = RMay ->
    periodic_block (table_protocol M t) row col ->
    S limit < length row \/ S limit < length col.
Proof.
  intros limit t M row col Hok V B.
  destruct (le_lt_dec (length row) (S limit)); [|auto]. destruct (le_lt_dec (length col) (S limit)); [|auto].
  destruct (livelock_semick_complete limit t M row col) as (r & c & E); auto. destruct V; congruence.
Qed.
Print Assumptions C55_not_found_bounds_the_block.

Example C55_example :
  exists row col, periodic_block (table_protocol 2 [1; 2; 2; 0]) row col /\ length row <= 3 /\ length col <= 3.
Proof.
  destruct (livelock_semick 2 [1; 2; 2; 0] 2) as [| |row col] eqn:E; try discriminate.
  pose proof (livelock_semick_yes 2 [1; 2; 2; 0] 2 row col) as [B _]; auto; [repeat constructor|].
  exists row, col. split; auto. vm_compute in E. injection E as <- <-. simpl. auto.
Qed.

(** The answer is exact: Yes exactly when there is a block within the limit. *)
Theorem C55_yes_iff_block_within_the_limit :
  forall limit t M, 1 <= limit -> table_ok M t ->
    ((exists row col, livelock_semick limit t M = RYes row col) <->
     exists row col, periodic_block (table_protocol M t) row col /\ length row <= S limit /\ length col <= S limit).
Proof.
  intros limit t M HL Hok. split.
  - intros (row & col & E). exists row, col. pose proof (livelock_semick_yes_len limit t M row col HL E).
    apply livelock_semick_yes in E; auto. tauto.
  - intros (row & col & B & L1 & L2). eapply livelock_semick_complete; eauto.
Qed.
Print Assumptions C55_yes_iff_block_within_the_limit.

(** A livelock on some ring always has the form of a block... *)
Theorem C55_livelock_iff_block :
  forall t M, table_ok M t -> self_disabling (table_protocol M t) ->
    ((exists N, livelock_on (table_protocol M t) M N) <->
     exists row col, periodic_block (table_protocol M t) row col).
Proof.
  intros t M Hok SD. split.
  - intros (N & H). destruct (table_torus M t N Hok SD H) as (X & m & n & HT). eapply torus_block; eauto.
  - intros (row & col & B). destruct (block_livelock M _ row col (table_protocol_range M t) B 0) as (N & _ & H). eauto.
Qed.
Print Assumptions C55_livelock_iff_block.

(** ... so every livelock is found if the limit is large enough. *)
Theorem C55_every_livelock_is_found :
  forall t M N, table_ok M t -> self_disabling (table_protocol M t) -> livelock_on (table_protocol M t) M N ->
    exists K, forall limit, K <= limit -> exists row col, livelock_semick limit t M = RYes row col.
Proof.
  intros t M N Hok SD H. destruct (proj1 (C55_livelock_iff_block t M Hok SD) (ex_intro _ N H)) as (row & col & B).
  exists (length row + length col). intros limit HL. eapply livelock_semick_complete; eauto; lia.
Qed.
Print Assumptions C55_every_livelock_is_found.

Example C55_example_ring :
  table_ok 3 [3; 0; 3; 3; 3; 1; 2; 3; 3] /\ self_disabling (table_protocol 3 [3; 0; 3; 3; 3; 1; 2; 3; 3]) /\
  livelock_semick 2 [3; 0; 3; 3; 3; 1; 2; 3; 3] 3 = RMay /\
  livelock_semick 3 [3; 0; 3; 3; 3; 1; 2; 3; 3] 3 = RYes [0; 0] [0; 2; 1; 0].
Proof.
  split; [repeat constructor|]. split; [|split; vm_compute; reflexivity].
  intros a b c d (Ha & Hb & Hc & E1) (_ & _ & Hd & E2).
  destruct a as [|[|[|a]]]; destruct b as [|[|[|b]]]; simpl in E1; try lia;
    try (injection E1 as <-; lia); injection E1 as <-; simpl in E2; try discriminate; injection E2 as <-; lia.
Qed.

(** ** C10 *)
(** A value matches a mask coordinate if the coordinate is the wildcard M or that value. *)
Definition matches (M : nat) (mask : nat * nat * nat) (a b c : nat) : Prop :=
  let '(ma, mb, mc) := mask in
  (ma = M \/ ma = a) /\ (mb = M \/ mb = b) /\ (mc = M \/ mc = c).

Theorem C10_subtract_exact :
  forall M set mask, length set = M * M * M ->
    length (subtract_action_mask set mask M) = M * M * M /\
    forall a b c, a < M -> b < M -> c < M ->
      (nth_error (subtract_action_mask set mask M) ((a * M + b) * M + c) = Some true <->
       nth_error set ((a * M + b) * M + c) = Some true /\ ~ matches M mask a b c).
Proof.
  intros M set [[ma mb] mc] L. unfold subtract_action_mask.
  split; [rewrite fold_clear_length; auto|].
  intros a b c Ha Hb Hc.
  pose proof (id3_lt M a b c Ha Hb Hc) as HI. 
  change ((a * M + b) * M + c) with (id_of3 a b c M) in *.
  assert (HT : forall l : list bool, length l = M * M * M ->
    (nth_error l (id_of3 a b c M) = Some true <-> nth (id_of3 a b c M) l false = true)).
  { intros l Hl. split; intros H.
    - apply nth_error_nth; auto.
    - rewrite <- H. apply nth_error_nth'. lia. }
  rewrite !HT by (rewrite ?fold_clear_length; auto).
  rewrite fold_clear_nth. rewrite andb_true_iff, negb_true_iff.
  assert (HE : existsb (Nat.eqb (id_of3 a b c M)) (mask_ids (ma, mb, mc) M) = true <->
               matches M (ma, mb, mc) a b c).
  { rewrite existsb_exists. split.
    - intros (x & Hx & E). apply Nat.eqb_eq in E. subst x. apply in_mask_ids in Hx.
      destruct Hx as (a' & b' & c' & H1 & H2 & H3 & H4 & H5 & H6 & H7).
      apply id3_inj in H7; auto. destruct H7 as (-> & -> & ->). simpl. auto.
    - intros (H1 & H2 & H3). exists (id_of3 a b c M). split; [|apply Nat.eqb_refl].
      apply in_mask_ids. exists a, b, c. auto 10. }
  rewrite <- HE. destruct (existsb _ _); intuition congruence.
Qed.
Print Assumptions C10_subtract_exact.

Theorem C10_overlap_exact :
  forall M set mask, length set = M * M * M ->
    (action_mask_overlap_ck mask set M = true <->
     exists a b c, a < M /\ b < M /\ c < M /\ matches M mask a b c /\
       nth_error set ((a * M + b) * M + c) = Some true).
Proof.
  intros M set [[ma mb] mc] L. unfold action_mask_overlap_ck. rewrite existsb_exists. split.
  - intros (i & Hi & H). apply in_mask_ids in Hi.
    destruct Hi as (a & b & c & H1 & H2 & H3 & H4 & H5 & H6 & ->).
    exists a, b, c. repeat split; auto. change ((a * M + b) * M + c) with (id_of3 a b c M).
    rewrite <- H. apply nth_error_nth'. rewrite L. apply id3_lt; auto.
  - intros (a & b & c & H1 & H2 & H3 & (H4 & H5 & H6) & H7).
    exists (id_of3 a b c M). split; [apply in_mask_ids; exists a, b, c; auto 10|].
    apply nth_error_nth; auto.
Qed.
Print Assumptions C10_overlap_exact.

Example C10_example :
  subtract_action_mask [true; true; true; false; true; true; true; true] (2, 0, 1) 2 =
  [true; false; true; false; true; false; true; true] /\
  action_mask_overlap_ck (0, 1, 2) [true; true; true; false; true; true; true; true] 2 = true /\
  action_mask_overlap_ck (0, 1, 1) [true; true; true; false; true; true; true; true] 2 = false.
Proof. repeat split. Qed.
