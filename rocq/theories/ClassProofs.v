From Coq Require Import List Arith Bool Lia.
From Verif Require Import FinLib Radix UniModel UniSpec UniProofs LivelockModel LivelockSpec LivelockProofs LivelockProps LiveTorus
  FmlaModel FmlaSpec FmlaProofs FmlaProofs2 FmlaProofs3 FmlaProofs4
  ReachModel ReachSpec ReachProofs CandProofs CmdModel CmdProofs2 ClassModel ClassSpec.
Import ListNotations.

Section C.
Variables M mx : nat.
Hypothesis MP : 1 <= M.
Variable t : list nat.
Hypothesis OK : table_ok M t.
Notation P := (table_protocol M t).
Notation ds := (ring_doms M mx).
Notation ok := (FmlaSpec.ok ds).

Lemma ds_inh : FmlaSpec.inhabited ds.
Proof. apply Forall_forall. intros d H. apply repeat_spec in H. lia. Qed.
Lemma ds_len : length ds = S mx.
Proof. unfold ring_doms. rewrite repeat_length. lia. Qed.
Lemma ds_nth : forall k, k <= mx -> nth k ds 0 = M.
Proof.
  intros k K. unfold ring_doms. assert (I : In (nth k (repeat M (1 + mx)) 0) (repeat M (1 + mx))) by (apply nth_In; rewrite repeat_length; lia).
  apply repeat_spec in I. auto.
Qed.
Lemma ok_iff : forall s, ok s <-> length s = S mx /\ Forall (fun x => x < M) s.
Proof.
  intros s. unfold FmlaSpec.ok, ring_doms. change (1 + mx) with (S mx). generalize (S mx) as n. intros n. revert s. induction n as [|n IH]; intros s; cbn [repeat].
  - split; [intros H; inversion H; auto|]. intros (L & _). destruct s; [constructor|discriminate].
  - split.
    + intros H. inversion H as [|x ? s' ? X H']; subst. apply IH in H'. destruct H' as (L & F). split; [cbn; lia|constructor; auto].
    + intros (L & F). destruct s as [|x s]; [discriminate|]. inversion F; subst. constructor; auto. apply IH. split; [cbn in L; lia|auto].
Qed.

Definition step_ok (j : nat) (s s' : list nat) : Prop := forall k, k < j -> P (nth k s' 0) (nth (S k) s 0) (nth (S k) s' 0).

Lemma column_eval : forall p j a i q, p <= mx -> j <= mx -> ok a -> ok i -> ok q ->
  (FmlaModel.eval (column_xfmla M mx (actions_of_ppgfun t M) p j) (join a i q) = true <-> P (nth p i 0) (nth j q 0) (nth j i 0)).
Proof.
  intros p j a i q PL JL A I Q. unfold column_xfmla.
  assert (R : forall acts f, Forall (fun x : UniAct => let '(a, b, c) := x in a < M /\ b < M /\ c < M) acts ->
    (FmlaModel.eval (fold_left (fun xn (act : UniAct) => let '(a, b, c) := act in
      or_PFmla xn (and_PFmla (and_PFmla (img_eqc_PFmlaVbl ds p a) (eqc_PFmlaVbl ds j b)) (img_eqc_PFmlaVbl ds j c))) acts f) (join a i q) = true <->
     FmlaModel.eval f (join a i q) = true \/ In (nth p i 0, nth j q 0, nth j i 0) acts)).
  { induction acts as [|((x & y) & z) acts IH]; intros f F; cbn [fold_left In]; [tauto|].
    inversion F as [|? ? XYZ F']; subst. cbn in XYZ. destruct XYZ as (X & Y & Z). rewrite IH by auto. rewrite eval_or, !eval_and, orb_true_iff, !andb_true_iff.
    rewrite !(ev_img_eqc ds), (ev_eqc ds) by (auto; rewrite ds_len; lia). unfold domsz. rewrite !ds_nth, !Nat.mod_small by auto. rewrite !Nat.eqb_eq. split.
    - intros [[H|((H1 & H2) & H3)]|H]; auto. right. left. congruence.
    - intros [H|[H|H]]; auto. injection H as H1 H2 H3. left. right. auto. }
  rewrite R.
  - rewrite (actions_of_ppgfun_spec M t) by (try apply OK; lia). cbn [FmlaModel.eval]. split; [intros [H|H]; [discriminate|auto]|auto].
  - apply Forall_forall. intros ((x & y) & z) H. apply (actions_of_ppgfun_spec M t) in H; [|lia|apply OK]. apply table_protocol_range in H. tauto.
Qed.

(** The columns up to [j]. *)
Definition upto (j : nat) (xn : fmla) : Prop := forall a i q, ok a -> ok i -> ok q -> (FmlaModel.eval xn (join a i q) = true <-> step_ok j q i).
Lemma upto_0 : upto 0 (Cst true).
Proof. intros a i q A I Q. split; auto. intros _ k K. lia. Qed.
Lemma upto_S : forall j xn, upto j xn -> S j <= mx -> upto (S j) (and_PFmla xn (column_xfmla M mx (actions_of_ppgfun t M) (S j - 1) (S j))).
Proof.
  intros j xn U L a i q A I Q. rewrite eval_and, andb_true_iff, (U a i q) by auto. rewrite column_eval by (auto; lia). replace (S j - 1) with j by lia. split.
  - intros (H1 & H2) k K. destruct (Nat.eq_dec k j) as [->|]; auto. apply H1. lia.
  - intros H. split; [intros k K; apply H; lia|apply H; lia].
Qed.
Lemma trans_of : forall xn (R : list nat -> list nat -> Prop), (forall a i q, ok a -> ok i -> ok q -> (FmlaModel.eval xn (join a i q) = true <-> R q i)) -> trans_fmla ds xn.
Proof. intros xn R H a a' i q A A' I Q. unfold meaning. rewrite (H a i q), (H a' i q) by auto. tauto. Qed.

(** The answer of the cycle check. *)
Lemma has_cycle_spec : forall xn (R : list nat -> list nat -> Prop), (forall a i q, ok a -> ok i -> ok q -> (FmlaModel.eval xn (join a i q) = true <-> R q i)) ->
  exists b, has_cycle M mx xn = Some b /\
  (b = true <-> exists m f, 1 <= m /\ f m = f 0 /\ (forall i, i <= m -> ok (f i)) /\ forall i, i < m -> R (f i) (f (S i))).
Proof.
  intros xn R H. destruct (scc_found ds ds_inh xn (trans_of xn R H)) as (scc & E & F & C). unfold has_cycle. rewrite E. cbn [option_map].
  eexists. split; [reflexivity|]. rewrite (sat_state ds ds_inh) by auto. split.
  - intros (s & SO & HS). apply C in HS; auto. destruct HS as (c1 & _ & _ & (n & f & F0 & Fn & RUN) & _).
    exists (S n), f. split; [lia|]. split; [congruence|]. split.
    + intros i I. destruct (Nat.eq_dec i (S n)) as [->|]; [rewrite Fn, <- F0; destruct (RUN 0 ltac:(lia)) as (O & _); auto|]. destruct (RUN i ltac:(lia)) as (O & _). auto.
    + intros i I. destruct (RUN i I) as (O1 & O2 & ST). apply (H (f i) (f (S i)) (f i)); auto.
  - intros (m & f & MP' & F0 & OKS & ST). exists (f 0). assert (O0 : ok (f 0)) by (apply OKS; lia). split; auto. apply C; auto.
    assert (CY : on_cycle (list nat) (xrel ds xn) (f 0)).
    { exists (m - 1). exists f. split; auto. replace (S (m - 1)) with m by lia. split; auto. intros i I. split; [apply OKS; lia|]. split; [apply OKS; lia|].
      unfold FmlaSpec.steps, meaning. apply H; auto; apply OKS; lia. }
    exists (f 0), (f 0). repeat split; auto; apply reaches_refl.
Qed.

(** Blocks and cycles. *)
Lemma block_values : forall m n (G : nat -> nat -> nat), 1 <= m -> 1 <= n ->
  (forall j, j <= n -> G m j = G 0 j) -> (forall i, i <= m -> G i n = G i 0) ->
  (forall i j, i < m -> j < n -> P (G (S i) j) (G i (S j)) (G (S i) (S j))) -> forall i j, i <= m -> j <= n -> G i j < M.
Proof.
  intros m n G HM HN V H T.
  assert (A : forall i j, i < m -> j < n -> G i (S j) < M) by (intros i j I J; pose proof (table_protocol_range M t _ _ _ (T i j I J)); tauto).
  assert (B : forall i j, i <= m -> j < n -> G i (S j) < M).
  { intros i j I J. destruct (Nat.eq_dec i m) as [->|]; [rewrite V by lia|]; apply A; lia. }
  intros i j I J. destruct j as [|j]; [rewrite <- H by auto; destruct n as [|n]; [lia|]; apply B; lia|]. apply B; lia.
Qed.
Lemma block_iff_cycle : forall j, 1 <= j <= mx -> (has_block P j <->
  exists m f, 1 <= m /\ f m = f 0 /\ (forall i, i <= m -> ok (f i)) /\
  forall i, i < m -> step_ok j (f i) (f (S i)) /\ nth 0 (f i) 0 = nth j (f i) 0 /\ nth 0 (f (S i)) 0 = nth j (f (S i)) 0).
Proof.
  intros j J. split.
  - intros (row & col & (m & n & G & HM & HN & LR & LC & V & H & T) & LW). assert (n = j) by lia. subst n.
    assert (V' : forall k, k <= j -> G m k = G 0 k) by (intros k K; destruct (V k K); congruence).
    assert (H' : forall i, i <= m -> G i j = G i 0) by (intros i I; destruct (H i I); congruence).
    pose proof (block_values m j G HM HN V' H' T) as B.
    set (f := fun i => map (G i) (seq 0 (S j)) ++ repeat 0 (mx - j)).
    assert (NF : forall i k, k <= j -> nth k (f i) 0 = G i k).
    { intros i k K. unfold f. rewrite app_nth1 by (rewrite map_length, seq_length; lia). rewrite (nth_indep _ 0 (G i 0)) by (rewrite map_length, seq_length; lia). rewrite map_nth, seq_nth by lia. auto. }
    exists m, f. split; auto. split.
    + unfold f. f_equal. apply map_ext_in. intros k K. apply in_seq in K. apply V'. lia.
    + split.
      * intros i I. apply ok_iff. unfold f. rewrite app_length, map_length, seq_length, repeat_length. split; [lia|]. apply Forall_app. split.
        -- apply Forall_forall. intros x X. apply in_map_iff in X. destruct X as (k & <- & K). apply in_seq in K. apply B; lia.
        -- apply Forall_forall. intros x X. apply repeat_spec in X. lia.
      * intros i I. split; [intros k K; rewrite !NF by lia; apply T; lia|]. rewrite !NF by lia. split; symmetry; apply H'; lia.
  - intros (m & f & HM & F0 & OKS & ST). set (G := fun i k => nth k (f i) 0).
    exists (map (G 0) (seq 0 (S j))), (map (fun i => G i 0) (seq 0 (S m))). split; [|rewrite map_length, seq_length; auto].
    assert (NR : forall k, k <= j -> nth k (map (G 0) (seq 0 (S j))) 0 = G 0 k).
    { intros k K. rewrite (nth_indep _ 0 (G 0 0)) by (rewrite map_length, seq_length; lia). rewrite map_nth, seq_nth by lia. auto. }
    assert (NC : forall i, i <= m -> nth i (map (fun i => G i 0) (seq 0 (S m))) 0 = G i 0).
    { intros i I. rewrite (nth_indep _ 0 (G 0 0)) by (rewrite map_length, seq_length; lia). rewrite (map_nth (fun i => G i 0)), seq_nth by lia. auto. }
    exists m, j, G. split; auto. split; [lia|]. split; [rewrite map_length, seq_length; auto|]. split; [rewrite map_length, seq_length; auto|]. split; [|split].
    + intros k K. rewrite NR by auto. split; auto. unfold G. rewrite F0. auto.
    + intros i I. rewrite NC by auto. split; auto. unfold G. destruct (Nat.eq_dec i m) as [->|].
      * rewrite F0. destruct (ST 0 ltac:(lia)) as (_ & E & _). auto.
      * destruct (ST i ltac:(lia)) as (_ & E & _). auto.
    + intros i k I K. apply (ST i I). auto.
Qed.
Lemma strip_iff_cycle : 1 <= mx -> (strip P mx <->
  exists m f, 1 <= m /\ f m = f 0 /\ (forall i, i <= m -> ok (f i)) /\ forall i, i < m -> step_ok mx (f i) (f (S i))).
Proof.
  intros MX. split.
  - intros (m & G & HM & V & T). set (f := fun i => map (G i) (seq 0 (S mx))).
    assert (NF : forall i k, k <= mx -> nth k (f i) 0 = G i k).
    { intros i k K. unfold f. rewrite (nth_indep _ 0 (G i 0)) by (rewrite map_length, seq_length; lia). rewrite map_nth, seq_nth by lia. auto. }
    exists m, f. split; auto. split; [unfold f; apply map_ext_in; intros k K; apply in_seq in K; apply V; lia|]. split.
    + intros i I. apply ok_iff. unfold f. rewrite map_length, seq_length. split; auto. apply Forall_forall. intros x X. apply in_map_iff in X. destruct X as (k & <- & K). apply in_seq in K.
      assert (A : forall i k, i < m -> k < mx -> G i (S k) < M) by (intros i' k' I' K'; pose proof (table_protocol_range M t _ _ _ (T i' k' I' K')); tauto).
      assert (B : forall i, i < m -> G (S i) 0 < M) by (intros i' I'; pose proof (table_protocol_range M t _ _ _ (T i' 0 I' MX)); tauto).
      destruct k as [|k].
      * destruct i as [|i]; [rewrite <- V by lia; destruct m as [|m]; [lia|]; apply B; lia|apply B; lia].
      * destruct (Nat.eq_dec i m) as [->|]; [rewrite V by lia|]; apply A; lia.
    + intros i I k K. rewrite !NF by lia. apply T; auto.
  - intros (m & f & HM & F0 & OKS & ST). exists m, (fun i k => nth k (f i) 0). split; auto. split; [intros k K; rewrite F0; auto|]. intros i k I K. apply (ST i I k K).
Qed.
Lemma block_strip : forall w, has_block P w -> strip P mx.
Proof.
  intros w (row & col & (m & n & G & HM & HN & LR & LC & V & H & T) & LW).
  exists m, (fun i k => G i (k mod n)). split; auto. split; [intros k K; assert (B : k mod n < n) by (apply Nat.mod_upper_bound; lia); destruct (V (k mod n)); [lia|congruence]|].
  intros i k I K. assert (B : k mod n < n) by (apply Nat.mod_upper_bound; lia). pose proof (T i (k mod n) I B) as TT.
  destruct (Nat.eq_dec (S (k mod n)) n) as [E|NE].
  - assert (Z : S k mod n = 0). { pose proof (Nat.div_mod k n ltac:(lia)). replace (S k) with (0 + (k / n + 1) * n) by nia. rewrite Nat.mod_add by lia. apply Nat.mod_small. lia. }
    rewrite Z. rewrite E in TT. destruct (H i ltac:(lia)) as (H1 & H2). destruct (H (S i) ltac:(lia)) as (H3 & H4). replace (G i 0) with (G i n) by congruence. replace (G (S i) 0) with (G (S i) n) by congruence. auto.
  - assert (Z : S k mod n = S (k mod n)). { pose proof (Nat.div_mod k n ltac:(lia)). replace (S k) with (S (k mod n) + (k / n) * n) by nia. rewrite Nat.mod_add by lia. apply Nat.mod_small. lia. }
    rewrite Z. auto.
Qed.

Variable mn : nat.
Lemma classify_loop_spec : 1 <= mx -> forall js j xn, upto j xn -> seq (S j) (mx - j) = js -> j <= mx -> (forall w, 1 <= w -> mn <= w <= j -> ~ has_block P w) ->
  exists r, classify_loop M mn mx (actions_of_ppgfun t M) js xn = Some r /\
  ((1 <= r /\ mn <= r <= mx /\ has_block P r /\ forall w, 1 <= w -> mn <= w < r -> ~ has_block P w) \/
   (forall w, 1 <= w -> mn <= w <= mx -> ~ has_block P w) /\ ((r = 0 /\ ~ strip P mx) \/ (r = mx + 1 /\ strip P mx))).
Proof.
  intros MX. induction js as [|k js IH]; intros j xn U SQ JL NB; cbn [classify_loop].
  - assert (j = mx). { destruct (mx - j) eqn:E; [lia|discriminate]. } subst j.
    destruct (has_cycle_spec xn (step_ok mx) U) as (b & -> & B). rewrite <- strip_iff_cycle in B by auto. destruct b.
    + exists (mx + 1). split; auto. right. split; auto. right. split; auto. apply B. auto.
    + exists 0. split; auto. right. split; auto. left. split; auto. intros H. apply B in H. discriminate.
  - assert (E : mx - j = S (mx - S j)). { destruct (mx - j) eqn:E; [discriminate|lia]. } rewrite E in SQ. cbn [seq] in SQ. injection SQ as <- SQ.
    pose proof (upto_S j xn U ltac:(lia)) as U'. set (xn' := and_PFmla xn (column_xfmla M mx (actions_of_ppgfun t M) (S j - 1) (S j))) in *.
    destruct (mn <=? S j) eqn:LE.
    + apply Nat.leb_le in LE.
      destruct (has_cycle_spec (and_PFmla (and_PFmla xn' (eq_PFmlaVbl ds 0 (S j))) (img_eq_img_PFmlaVbl ds 0 (S j)))
        (fun s s' => step_ok (S j) s s' /\ nth 0 s 0 = nth (S j) s 0 /\ nth 0 s' 0 = nth (S j) s' 0)) as (b & -> & B).
      { intros a i q A I Q. rewrite !eval_and, !andb_true_iff, (U' a i q) by auto. rewrite (ev_eq ds), (ev_img_eq_img ds) by (auto; rewrite ds_len; lia).
        unfold domsz. rewrite ds_nth by lia. rewrite (Nat.mod_small (nth (S j) i 0)). { rewrite !Nat.eqb_eq. tauto. }
        apply ok_iff in I. destruct I as (L & F). rewrite Forall_forall in F. apply F. apply nth_In. lia. }
      rewrite <- block_iff_cycle in B by lia. destruct b.
      * exists (S j). split; auto. left. split; [lia|]. split; [lia|]. split; [apply B; auto|]. intros w W1 W2. apply NB; lia.
      * apply (IH (S j)); auto; [lia|]. intros w W1 W2. destruct (Nat.eq_dec w (S j)) as [->|]; [intros C; apply B in C; discriminate|apply NB; lia].
    + apply Nat.leb_gt in LE. apply (IH (S j)); auto; [lia|]. intros w W1 W2. apply NB; lia.
Qed.
Lemma bdd_classify_spec : 1 <= mx ->
  exists r, bdd_classify M mn mx t = Some r /\
  ((1 <= r /\ mn <= r <= mx /\ has_block P r /\ forall w, 1 <= w -> mn <= w < r -> ~ has_block P w) \/
   (forall w, 1 <= w -> mn <= w <= mx -> ~ has_block P w) /\ ((r = 0 /\ ~ strip P mx) \/ (r = mx + 1 /\ strip P mx))).
Proof.
  intros MX. unfold bdd_classify. apply (classify_loop_spec MX (seq 1 mx) 0 (Cst true) upto_0); auto; [rewrite Nat.sub_0_r; auto|lia|]. intros w W1 W2. lia.
Qed.
End C.
