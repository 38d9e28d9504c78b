(** The block returned by the livelock check is within the limit. *)
From Coq Require Import List Arith Lia Bool.
From Verif Require Import FinLib UniModel UniSpec UniProofs LivelockModel LivelockSpec LivelockProofs.
Import ListNotations.

Lemma find_some_in : forall {A B} (f : A -> option B) l y, LivelockModel.find_some f l = Some y -> exists x, In x l /\ f x = Some y.
Proof.
  induction l as [|x l IH]; intros y H; simpl in H; [discriminate|].
  destruct (f x) eqn:E; [injection H as ->; exists x; simpl; auto|]. destruct (IH _ H) as (z & Hz & E'). exists z. simpl. auto.
Qed.

Lemma nat_list_eqb_len : forall a b, nat_list_eqb a b = true -> length a = length b.
Proof.
  induction a; intros [|y b] H; simpl in *; try discriminate; auto. apply andb_prop in H. f_equal. apply IHa. tauto.
Qed.

Lemma build_col_len : forall t M old d col, build_col t M d old = Some col -> length col = S (length old).
Proof.
  induction old as [|a old IH]; intros d col H; simpl in H; [injection H as <-; auto|].
  destruct (ppg t M a d =? M); [discriminate|]. destruct (build_col _ _ _ old) eqn:E; [|discriminate].
  injection H as <-. apply IH in E. simpl. lia.
Qed.

Lemma find_block_len : forall t M n bot col row c, find_block t M n bot col = Some (row, c) ->
  length row <= length bot /\ length c <= length col.
Proof.
  intros t M n bot col row c H. apply find_some_in in H. destruct H as (j & _ & H).
  destruct (nth j bot 0 =? nth n bot 0); [|discriminate]. apply find_some_in in H. destruct H as (i & _ & H).
  destruct (nth i col 0 =? nth n col 0); [|discriminate].
  unfold fill_livelock_ck in H. destruct (fill_rows t M (skipn j bot) (tl (skipn i col))) as [r|]; [|discriminate].
  destruct (nat_list_eqb r (skipn j bot)) eqn:E; [|discriminate]. injection H as <- <-.
  apply nat_list_eqb_len in E. rewrite E, !skipn_length. lia.
Qed.

Lemma diag_loop_len : forall t M deeper K, 
  forall old_bot old_col ds may row c, length old_bot = length old_col -> S (length old_bot) <= K ->
  (forall bot col row c, length bot = S (length old_bot) -> length col = S (length old_bot) ->
     deeper bot col = RYes row c -> length row <= K /\ length c <= K) ->
  diag_loop t M deeper old_bot old_col ds may = RYes row c -> length row <= K /\ length c <= K.
Proof.
  intros t M deeper K old_bot old_col ds. induction ds as [|d ds IH]; intros may row c L HK HD H; cbn [diag_loop] in H.
  - destruct may; discriminate.
  - destruct (build_col t M d old_col) as [col|] eqn:E; [|eauto]. apply build_col_len in E.
    cbv zeta in H. set (bot := old_bot ++ _) in H.
    assert (Lb : length bot = S (length old_bot)) by (unfold bot; rewrite app_length; simpl; lia).
    destruct (find_block t M (length old_bot) bot col) as [[r' c']|] eqn:F.
    + injection H as <- <-. apply find_block_len in F. lia.
    + destruct (deeper bot col) as [| |r' c'] eqn:D; eauto. injection H as <- <-. apply (HD bot col); auto. lia.
Qed.

Lemma semick_rec_len : forall t M k bot col row c, length bot = length col ->
  semick_rec t M k bot col = RYes row c -> length row <= S (length bot + k) /\ length c <= S (length bot + k).
Proof.
  intros t M. induction k; intros bot col row c L H; cbn [semick_rec] in H;
    eapply diag_loop_len with (K := S (length bot + _)) in H; eauto; try lia; [discriminate|].
  intros b cl r c' Lb Lc Hr. apply IHk in Hr; lia.
Qed.

Lemma livelock_semick_yes_len : forall limit t M row col, 1 <= limit ->
  livelock_semick limit t M = RYes row col -> length row <= S limit /\ length col <= S limit.
Proof.
  intros limit t M row col HL H. unfold livelock_semick in H. revert H. generalize (seq 0 M). generalize false.
  intros b l. revert t b. induction l as [|c l IH]; intros t b H; cbn [semick_loop] in H.
  - destruct b; discriminate.
  - destruct (semick_rec t M (limit - 1) [c] [c]) as [| |r' c'] eqn:E; eauto.
    injection H as <- <-. apply semick_rec_len in E; auto. simpl in E. lia.
Qed.
