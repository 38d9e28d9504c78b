(** An initial segment of a canonical protocol is canonical. *)
From Coq Require Import List Arith Lia Bool.
From Verif Require Import FinLib Radix UniModel UniSpec UniProofs LivelockModel LivelockProofs
  CanonModel CanonSpec CanonProofs GenModel GenSpec.
Import ListNotations.

Lemma lex_of_pointwise : forall (l l' : list nat) i, length l = length l' -> i < length l' ->
  (forall j, j < i -> nth j l 0 <= nth j l' 0) -> nth i l 0 < nth i l' 0 -> lex_less l l'.
Proof.
  induction l as [|x l IH]; intros [|y l'] i L Hi H Hs; simpl in L, Hi; try lia.
  destruct i.
  - exists 0. simpl in *. split; [lia|]. auto.
  - pose proof (H 0 ltac:(lia)) as H0. simpl in H0.
    destruct (Nat.eq_dec x y) as [->|].
    + destruct (IH l' i) as (k & Hk & HF & HN); try lia.
      * intros j Hj. apply (H (S j)). lia.
      * exact Hs.
      * exists (S k). simpl. split; [lia|]. split; [f_equal; auto|auto].
    + exists 0. simpl. split; [lia|]. split; [auto|lia].
Qed.

Lemma nth_firstn' : forall (l : list nat) i j, j < i -> nth j (firstn i l) 0 = nth j l 0.
Proof.
  induction l as [|x l IH]; intros i j H; [rewrite firstn_nil; reflexivity|].
  destruct i; [lia|]. destruct j; [reflexivity|]. simpl. apply IH. lia.
Qed.

Lemma split_pos : forall M p, p < M * M -> exists a b, a < M /\ b < M /\ p = id_of2 a b M.
Proof.
  intros M p H. assert (M <> 0) by lia. exists (p / M), (p mod M). unfold id_of2.
  split; [apply Nat.div_lt_upper_bound; lia|]. split; [apply Nat.mod_upper_bound; lia|].
  pose proof (Nat.div_mod p M ltac:(lia)). lia.
Qed.

Section Canon.
Variable M : nat.
Hypothesis M1 : 1 <= M.
Notation TP := (table_protocol M).

Lemma tp_nth : forall t p v, table_ok M t -> p < M * M -> v < M ->
  (nth p t M = v <-> forall a b, a < M -> b < M -> p = id_of2 a b M -> TP t a b v).
Proof.
  intros t p v Hok Hp Hv. destruct (split_pos M p Hp) as (a & b & Ha & Hb & E). split.
  - intros H a' b' Ha' Hb' E'. apply table_protocol_nth; auto; [apply Hok|]. subst p. rewrite <- E'. auto.
  - intros H. specialize (H a b Ha Hb E). apply table_protocol_nth in H; auto; [|apply Hok]. subst p. tauto.
Qed.

Lemma nth_default : forall t p d, table_ok M t -> p < M * M -> nth p t d = nth p t M.
Proof. intros t p d [L _] Hp. apply nth_indep. lia. Qed.

Lemma nth_le : forall t p, table_ok M t -> nth p t M <= M.
Proof.
  intros t p [L F]. destruct (Nat.lt_ge_cases p (length t)).
  - rewrite Forall_forall in F. apply F. apply nth_In. auto.
  - rewrite nth_overflow; auto.
Qed.

Lemma sub_nth : forall t t' p v, table_ok M t -> table_ok M t' -> p < M * M -> v < M ->
  (forall a b c, TP t a b c -> TP t' a b c) -> nth p t M = v -> nth p t' M = v.
Proof.
  intros t t' p v Hok Hok' Hp Hv HS H.
  apply tp_nth; auto. intros a b Ha Hb E. apply HS. eapply (proj1 (tp_nth t p v Hok Hp Hv)); eauto.
Qed.

Variables tD tP : list nat.
Hypothesis OD : table_ok M tD.
Hypothesis OP : table_ok M tP.
Variable k : nat.
Hypothesis HK : forall i, i < M * M -> (i < k -> nth i tD M = nth i tP M) /\ (k <= i -> nth i tD M = M).

Lemma prefix_sub : forall a b c, TP tD a b c -> TP tP a b c.
Proof.
  intros a b c H. pose proof (table_protocol_range _ _ _ _ _ H) as (Ha & Hb & Hc).
  apply table_protocol_nth in H; auto; [|apply OD]. apply table_protocol_nth; auto; [apply OP|].
  split; auto. destruct H as [_ H]. pose proof (id2_lt M a b Ha Hb) as Hlt.
  destruct (HK _ Hlt) as [K1 K2]. destruct (Nat.lt_ge_cases (id_of2 a b M) k); [|rewrite K2 in H; lia].
  rewrite <- K1; auto.
Qed.

(** One renaming: if it makes the segment smaller, it makes the whole smaller. *)
Lemma prefix_improves : forall pi tD' tP', renaming M pi -> renamed M pi tD tD' -> renamed M pi tP tP' ->
  lex_less tD' tD -> lex_less tP' tP.
Proof.
  intros pi tD' tP' HR (OD' & FD & BD) (OP' & FP & BP) (i & Hi & HF & HN).
  assert (LD : length tD = M * M) by apply OD. assert (LD' : length tD' = M * M) by apply OD'.
  assert (LP : length tP = M * M) by apply OP. assert (LP' : length tP' = M * M) by apply OP'.
  assert (Heq : forall j, j < i -> nth j tD' M = nth j tD M).
  { intros j Hj. rewrite <- (nth_default tD' j 0), <- (nth_default tD j 0) by (auto; lia).
    rewrite <- (nth_firstn' tD' i j Hj), <- (nth_firstn' tD i j Hj). congruence. }
  assert (HN' : nth i tD' M < nth i tD M).
  { rewrite <- (nth_default tD' i 0), <- (nth_default tD i 0) by (auto; lia). exact HN. }
  assert (HS' : forall a b c, TP tD' a b c -> TP tP' a b c).
  { intros a' b' c' H. apply BD in H. destruct H as (a & b & c & H & -> & -> & ->).
    apply FP. apply prefix_sub. auto. }
  pose proof (nth_le tD i OD) as Hle.
  destruct (Nat.lt_ge_cases i k) as [Hik|Hik].
  - apply lex_of_pointwise with i; [lia|lia| |].
    + intros j Hj. rewrite (nth_default tP' j 0), (nth_default tP j 0) by (auto; lia). specialize (Heq j Hj).
      destruct (HK j ltac:(lia)) as [K1 _]. specialize (K1 ltac:(lia)).
      destruct (Nat.eq_dec (nth j tD M) M) as [E|E].
      * rewrite <- K1, E. apply nth_le; auto.
      * pose proof (nth_le tD j OD). rewrite (sub_nth tD' tP' j (nth j tD M)); auto; lia.
    + rewrite (nth_default tP' i 0), (nth_default tP i 0) by (auto; lia). destruct (HK i ltac:(lia)) as [K1 _].
      rewrite <- K1 by auto. rewrite (sub_nth tD' tP' i (nth i tD' M)); auto; lia.
  - exfalso. destruct (HK i ltac:(lia)) as [_ K2]. specialize (K2 Hik).
    set (L1 := actions_of_ppgfun tD M). set (L2 := actions_of_ppgfun tD' M).
    assert (I1 : forall a b c, In (a, b, c) L1 <-> TP tD a b c)
      by (intros; apply actions_of_ppgfun_spec; lia).
    assert (I2 : forall a b c, In (a, b, c) L2 <-> TP tD' a b c)
      by (intros; apply actions_of_ppgfun_spec; lia).
    assert (N1 : NoDup L1) by (apply actions_of_ppgfun_NoDup; lia).
    assert (N2 : NoDup L2) by (apply actions_of_ppgfun_NoDup; lia).
    assert (C1 : length L2 <= length L1).
    { apply Nat.le_trans with (length (map (fun x : UniAct => let '(a, b, c) := x in (pi a, pi b, pi c)) L1));
        [|rewrite map_length; apply le_n].
      apply NoDup_incl_length; auto. intros [[a' b'] c'] H. apply I2 in H. apply BD in H.
      destruct H as (a & b & c & H & -> & -> & ->). apply in_map_iff. exists (a, b, c). split; auto.
      apply I1. auto. }
    destruct (split_pos M i ltac:(lia)) as (a & b & Ha & Hb & Ei).
    assert (C2 : length ((a, b, nth i tD' M) :: L1) <= length L2).
    { apply NoDup_incl_length.
      - constructor; auto. intros H. apply I1 in H. apply table_protocol_nth in H; auto. subst i. lia.
      - intros [[x y] z] [H|H].
        + injection H as <- <- <-. apply I2. apply table_protocol_nth; auto. subst i. split; [lia|auto].
        + apply I1 in H. apply I2. pose proof (table_protocol_range _ _ _ _ _ H) as (Hx & Hy & Hz).
          apply table_protocol_nth in H; auto. apply table_protocol_nth; auto.
          destruct H as [_ H]. split; auto. pose proof (id2_lt M x y Hx Hy).
          destruct (HK (id_of2 x y M) ltac:(lia)) as [_ K3].
          rewrite Heq; auto. destruct (Nat.lt_ge_cases (id_of2 x y M) k); [lia|rewrite K3 in H; lia]. }
    apply (Nat.nle_succ_diag_l (length L1)). eapply Nat.le_trans; [exact C2|exact C1].
Qed.

Lemma canonical_prefix : canonical_ck tP M = true -> canonical_ck tD M = true.
Proof.
  unfold canonical_ck. rewrite !forallb_forall. intros H idx Hi. specialize (H idx Hi).
  rewrite negb_true_iff in *. destruct (lex_ltb _ tD) eqn:E; auto. exfalso.
  apply in_seq in Hi. pose proof (perm_map_perm M idx M1 ltac:(lia)) as HP.
  destruct (permute_renamed M tD (perm_map M idx) M1 OD HP) as [HR R1].
  destruct (permute_renamed M tP (perm_map M idx) M1 OP HP) as [_ R2].
  pose proof (proj1 R1) as [L1 _]. pose proof (proj1 R2) as [L2 _].
  apply lex_ltb_spec in E; [|rewrite L1; symmetry; apply OD].
  assert (X : lex_ltb (permute_pc_act tP (perm_map M idx) M) tP = true).
  { apply lex_ltb_spec; [rewrite L2; symmetry; apply OP|]. eapply prefix_improves; eauto. }
  congruence.
Qed.
End Canon.
