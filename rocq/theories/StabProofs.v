(** Lemmas about StabModel.v. *)
From Coq Require Import List Arith Bool Lia.
From Verif Require Import FinLib ReachModel ReachSpec ReachProofs StabModel StabSpec.
Import ListNotations.

Section Basic.
Variable St : Type.
Variable eq_dec : forall x y : St, {x = y} + {x <> y}.
Variable univ : list St.
Hypothesis Hall : forall s, In s univ.

Notation sat := (sat St univ).
Notation equiv := (equiv St univ).
Notation subset := (subset St univ).
Notation overlap := (overlap St univ).
Notation taut := (taut St univ).
Notation pand := (pand St eq_dec univ).
Notation por := (por St eq_dec univ).
Notation pminus := (pminus St eq_dec univ).
Notation pnot := (pnot St eq_dec univ).
Notation pre := (pre St eq_dec univ).
Notation img := (img St eq_dec univ).
Notation requiv := (requiv St univ).
Notation rand := (rand St eq_dec univ).
Notation ror := (ror St eq_dec univ).
Notation rminus := (rminus St eq_dec univ).
Notation rsrc := (rsrc St eq_dec univ).
Notation rdst := (rdst St eq_dec univ).
Notation rsubset := (rsubset St univ).
Notation sources := (sources St eq_dec univ).
Notation targets := (targets St eq_dec univ).
Notation proj := (proj St eq_dec univ).
Notation projr := (projr St eq_dec univ).
Notation N := (length univ).
Notation rp := (rp St).
Notation cnt := (cnt St univ).
Notation unresolved := (unresolved St eq_dec univ).

Lemma rand_spec : forall a b s t, rand a b s t = a s t && b s t.
Proof. intros. apply (rtab_spec St eq_dec univ Hall). Qed.
Lemma ror_spec : forall a b s t, ror a b s t = a s t || b s t.
Proof. intros. apply (rtab_spec St eq_dec univ Hall). Qed.
Lemma rminus_spec : forall a b s t, rminus a b s t = a s t && negb (b s t).
Proof. intros. apply (rtab_spec St eq_dec univ Hall). Qed.
Lemma rsrc_spec : forall a p s t, rsrc a p s t = a s t && p s.
Proof. intros. apply (rtab_spec St eq_dec univ Hall). Qed.
Lemma rdst_spec : forall a p s t, rdst a p s t = a s t && p t.
Proof. intros. apply (rtab_spec St eq_dec univ Hall). Qed.
Lemma rsubset_spec : forall a b, rsubset a b = true <-> forall s t, a s t = true -> b s t = true.
Proof.
  intros a b. unfold StabModel.rsubset. rewrite forallb_forall. split.
  - intros H s t. apply (subset_spec St univ Hall). auto.
  - intros H s _. apply (subset_spec St univ Hall). auto.
Qed.
Lemma sources_spec : forall a s, sources a s = true <-> exists t, a s t = true.
Proof.
  intros a s. unfold StabModel.sources. rewrite (pre_spec St eq_dec univ Hall).
  split; intros (t & H); exists t; tauto.
Qed.
Lemma targets_spec : forall a t, targets a t = true <-> exists s, a s t = true.
Proof.
  intros a s. unfold StabModel.targets. rewrite (img_spec St eq_dec univ Hall).
  split; intros (t & H); exists t; tauto.
Qed.
Lemma proj_spec : forall same p s, proj same p s = true <-> exists t, same s t = true /\ p t = true.
Proof.
  intros same p s. unfold StabModel.proj. rewrite (tab_spec St eq_dec univ Hall), existsb_exists. split.
  - intros (t & _ & H). apply andb_true_iff in H. eauto.
  - intros (t & H1 & H2). exists t. rewrite H1, H2. auto.
Qed.
Lemma projr_spec : forall same r s s', projr same r s s' = true <->
  exists t t', same s t = true /\ same s' t' = true /\ r t t' = true.
Proof.
  intros same r s s'. unfold StabModel.projr. rewrite (rtab_spec St eq_dec univ Hall), existsb_exists. split.
  - intros (t & _ & H). apply andb_true_iff in H. destruct H as (H1 & H2).
    apply existsb_exists in H2. destruct H2 as (t' & _ & H2). apply andb_true_iff in H2.
    exists t, t'. tauto.
  - intros (t & t' & H1 & H2 & H3). exists t. split; auto. rewrite H1. apply existsb_exists.
    exists t'. rewrite H2, H3. auto.
Qed.

(** * The probabilistic livelock check *)

Section Prob.
Variable pcs : list (St -> St -> bool).
Variable progress : St -> St -> bool.

(** One round: states in which some process has no way to make progress or to
    leave the span. *)
Definition held (X : St -> Prop) (s : St) : Prop :=
  exists pc, In pc pcs /\ (exists t, pc s t = true) /\
    forall t, pc s t = true -> X t /\ progress s t = false.

Lemma unresolved_spec : forall span s,
  unresolved pcs progress span s = true <-> held (fun t => span t = true) s.
Proof.
  intros span s. unfold StabModel.unresolved, held.
  assert (G : forall acc, fold_left (fun span1 pc =>
      por span1 (pminus (sources pc) (por (sources (rand pc progress)) (pre pc (pnot span))))) pcs acc s = true <->
      acc s = true \/ exists pc, In pc pcs /\ (exists t, pc s t = true) /\
        forall t, pc s t = true -> span t = true /\ progress s t = false).
  { induction pcs as [|pc l IH]; intros acc; cbn [fold_left].
    - split; auto. intros [H|(pc & [] & _)]. auto.
    - rewrite IH. rewrite (por_spec St eq_dec univ Hall), orb_true_iff, (pminus_spec St eq_dec univ Hall),
        andb_true_iff, negb_true_iff, (por_spec St eq_dec univ Hall), orb_false_iff.
      assert (E : (sources pc s = true /\ sources (rand pc progress) s = false /\ pre pc (pnot span) s = false) <->
        ((exists t, pc s t = true) /\ forall t, pc s t = true -> span t = true /\ progress s t = false)).
      { rewrite sources_spec. split.
        - intros (H1 & H2 & H3). split; auto. intros t Ht. split.
          + destruct (span t) eqn:E; auto.
            assert (pre pc (pnot span) s = true); [|congruence].
            apply (pre_spec St eq_dec univ Hall). exists t. rewrite (pnot_spec St eq_dec univ Hall), E. auto.
          + destruct (progress s t) eqn:E; auto.
            assert (sources (rand pc progress) s = true); [|congruence].
            apply sources_spec. exists t. rewrite rand_spec, Ht, E. auto.
        - intros (H1 & H2). split; auto. split.
          + destruct (sources (rand pc progress) s) eqn:E; auto. apply sources_spec in E.
            destruct E as (t & Ht). rewrite rand_spec in Ht. apply andb_true_iff in Ht.
            destruct (H2 t); [tauto|]. destruct Ht. congruence.
          + destruct (pre pc (pnot span) s) eqn:E; auto. apply (pre_spec St eq_dec univ Hall) in E.
            destruct E as (t & Ht & Hs). rewrite (pnot_spec St eq_dec univ Hall) in Hs.
            destruct (H2 t Ht) as (Hs' & _). rewrite Hs' in Hs. discriminate. }
      rewrite E. split.
      + intros [[H|H]|(p & H1 & H2)]; auto.
        * right. exists pc. split; [left; auto|auto].
        * right. exists p. split; [right; auto|auto].
      + intros [H|(p & [<-|H1] & H2)]; auto. right. exists p. auto. }
  rewrite G. split; [intros [H|H]; [discriminate|auto]|auto].
Qed.

(** The states reached by k rounds starting from [B]. *)
Fixpoint round (B : St -> bool) (k : nat) : St -> bool :=
  match k with
  | 0 => B
  | S k' => pand (round B k') (unresolved pcs progress (round B k'))
  end.

Lemma pand_le_l : forall p q s, pand p q s = true -> p s = true.
Proof. intros p q s. rewrite (pand_spec St eq_dec univ Hall). intros H. apply andb_true_iff in H. tauto. Qed.

Lemma prob_loop_spec : forall fuel B j x1 x2,
  (forall s, pand x1 x2 s = round B j s) ->
  cnt (pand x1 x2) < fuel ->
  exists k out, prob_loop St eq_dec univ fuel pcs progress x1 x2 = Some out /\
    (forall s, out s = round B k s) /\ k <= j + cnt (pand x1 x2) /\
    (forall s, out s = true -> held (fun t => out t = true) s).
Proof.
  induction fuel; intros B j x1 x2 He Hc; [lia|].
  cbn [prob_loop]. set (sp := pand x1 x2) in *.
  destruct (subset sp (unresolved pcs progress sp)) eqn:E.
  - exists j, sp. split; auto. split; auto. split; [lia|]. intros s Hs. apply unresolved_spec.
    apply (proj1 (subset_spec St univ Hall _ _) E). auto.
  - assert (Hlt : cnt (pand sp (unresolved pcs progress sp)) < cnt sp).
    { assert (X : exists s, sp s = true /\ unresolved pcs progress sp s = false).
      { destruct (sat (pminus sp (unresolved pcs progress sp))) eqn:E2.
        - apply (sat_spec St univ Hall) in E2. destruct E2 as (s & Hs).
          rewrite (pminus_spec St eq_dec univ Hall) in Hs. apply andb_true_iff in Hs.
          rewrite negb_true_iff in Hs. eauto.
        - exfalso. pose proof (proj1 (sat_false St univ Hall _) E2) as E3.
          assert (subset sp (unresolved pcs progress sp) = true); [|congruence].
          apply (subset_spec St univ Hall). intros s Hs. specialize (E3 s).
          rewrite (pminus_spec St eq_dec univ Hall), Hs in E3. simpl in E3.
          apply negb_false_iff in E3. auto. }
      destruct X as (s & Hs1 & Hs2).
      apply (cnt_lt St univ Hall _ _ s); auto.
      - intros x Hx. eapply pand_le_l; eauto.
      - rewrite (pand_spec St eq_dec univ Hall), Hs2. apply andb_false_r. }
    destruct (IHfuel B (S j) sp (unresolved pcs progress sp)) as (k & out & H1 & H2 & H3 & H4).
    + intros s. cbn [round]. rewrite !(pand_spec St eq_dec univ Hall). rewrite He. f_equal.
      apply eq_true_iff_eq. rewrite !unresolved_spec. unfold held.
      split; intros (pc & Hp & Hx & Ht); exists pc; (split; [auto|]); (split; [auto|]);
      intros t Ht'; destruct (Ht t Ht'); split; auto; congruence.
    + lia.
    + exists k, out. split; auto. split; auto. split; auto. lia.
Qed.

Lemma round_mono : forall B k s, round B (S k) s = true -> round B k s = true.
Proof. intros B k s H. cbn [round] in H. eapply pand_le_l; eauto. Qed.
Lemma round_le : forall B j k s, j <= k -> round B k s = true -> round B j s = true.
Proof.
  intros B j k s Hjk. induction k as [|k IH].
  - intros H. replace j with 0 by lia. auto.
  - intros H. destruct (Nat.eq_dec j (S k)) as [->|Hn]; auto. apply IH; [lia|]. apply round_mono. auto.
Qed.

(** The result is the greatest trap inside the start. *)
Lemma round_greatest : forall B (X : St -> Prop),
  (forall s, X s -> B s = true) -> (forall s, X s -> held X s) -> forall k s, X s -> round B k s = true.
Proof.
  intros B X HB HX k. induction k; intros s Hs; cbn [round]; auto.
  rewrite (pand_spec St eq_dec univ Hall), (IHk s Hs). simpl. apply unresolved_spec.
  destruct (HX s Hs) as (pc & H1 & H2 & H3). exists pc. split; auto. split; auto.
  intros t Ht. destruct (H3 t Ht). auto.
Qed.

Theorem prob_loop_exact : forall fuel (A : St -> bool) xn, N < fuel ->
  exists k out, prob_loop St eq_dec univ fuel pcs progress A (sources xn) = Some out /\
    let B := fun s => A s && sources xn s in
    (forall s, out s = round (pand A (sources xn)) k s) /\ k <= N /\
    (forall s, out s = true -> A s = true /\ held (fun t => out t = true) s) /\
    (forall X : St -> Prop, (forall s, X s -> A s = true /\ sources xn s = true) ->
       (forall s, X s -> held X s) -> forall s, X s -> out s = true).
Proof.
  intros fuel A xn Hf.
  destruct (prob_loop_spec fuel (pand A (sources xn)) 0 A (sources xn)) as (k & out & H1 & H2 & H3 & H4).
  - intros s. reflexivity.
  - pose proof (cnt_N St univ (pand A (sources xn))). lia.
  - exists k, out. split; auto. cbn zeta. split; auto. split.
    + pose proof (cnt_N St univ (pand A (sources xn))). lia.
    + split.
      * intros s Hs. split; auto. rewrite H2 in Hs. apply (round_le _ 0) in Hs; [|lia].
        cbn [round] in Hs. eapply pand_le_l; eauto.
      * intros X HX1 HX2 s Hs. rewrite H2. apply (round_greatest _ X); auto.
        intros x Hx. rewrite (pand_spec St eq_dec univ Hall). apply andb_true_iff. auto.
Qed.
End Prob.

(** The backward trimming of the returned set. *)
Lemma prob_img_spec : forall xn fuel x1 x2,
  cnt (pand x1 x2) < fuel ->
  exists out, prob_img_loop St eq_dec univ fuel xn x1 x2 = Some out /\
    (forall s, out s = true -> pand x1 x2 s = true) /\
    (forall s, out s = true -> exists u, out u = true /\ xn u s = true) /\
    (forall U : St -> Prop, (forall s, U s -> pand x1 x2 s = true) ->
       (forall s, U s -> exists u, U u /\ xn u s = true) -> forall s, U s -> out s = true).
Proof.
  intros xn. induction fuel; intros x1 x2 Hc; [lia|].
  cbn [prob_img_loop]. set (sp := pand x1 x2) in *.
  destruct (subset sp (img xn sp)) eqn:E.
  - exists sp. split; auto. split; auto. split; [|auto]. intros s Hs.
    apply (proj1 (subset_spec St univ Hall _ _) E) in Hs. apply (img_spec St eq_dec univ Hall) in Hs. auto.
  - assert (X : exists s, sp s = true /\ img xn sp s = false).
    { destruct (sat (pminus sp (img xn sp))) eqn:E2.
      - apply (sat_spec St univ Hall) in E2. destruct E2 as (s & Hs).
        rewrite (pminus_spec St eq_dec univ Hall) in Hs. apply andb_true_iff in Hs.
        rewrite negb_true_iff in Hs. eauto.
      - exfalso. pose proof (proj1 (sat_false St univ Hall _) E2) as E3.
        assert (subset sp (img xn sp) = true); [|congruence].
        apply (subset_spec St univ Hall). intros s Hs. specialize (E3 s).
        rewrite (pminus_spec St eq_dec univ Hall), Hs in E3. simpl in E3.
        apply negb_false_iff in E3. auto. }
    destruct X as (x & Hx1 & Hx2).
    assert (Hlt : cnt (pand sp (img xn sp)) < cnt sp).
    { apply (cnt_lt St univ Hall _ _ x); auto.
      - intros y Hy. eapply pand_le_l; eauto.
      - rewrite (pand_spec St eq_dec univ Hall), Hx2. apply andb_false_r. }
    destruct (IHfuel sp (img xn sp)) as (out & H1 & H2 & H3 & H4); [lia|].
    exists out. split; auto. split; [intros s Hs; eapply pand_le_l; eauto|]. split; auto.
    intros U HU1 HU2 s Hs. apply (H4 U); auto. intros y Hy.
    rewrite (pand_spec St eq_dec univ Hall), (HU1 y Hy). simpl. apply (img_spec St eq_dec univ Hall).
    destruct (HU2 y Hy) as (u & Hu1 & Hu2). exists u. auto.
Qed.

(** * Shadow loop *)
Notation closure_within := (closure_within St eq_dec univ).
Notation img_reach := (img_reach St eq_dec univ).
Notation pre_reach := (pre_reach St eq_dec univ).

Lemma shadow_loop_spec : forall fuel lo beg fin, N < fuel ->
  forall loop_fuel h live self, cnt h < loop_fuel ->
  exists h' live' self',
  shadow_loop St eq_dec univ fuel loop_fuel lo beg fin h live self = Some (h', live', self') /\
  (forall s, h' s = true -> h s = true) /\
  closed St (rp lo) (fun s => h' s = true) /\
  (forall s t, live' s t = live s t && h' s && h' t) /\
  (forall s t, self' s t = self s t && h' s && h' t) /\
  (forall s, h' s = true -> exists b, reaches St (rp self') b s /\
     (beg b = true \/ exists u, live' u b = true)) /\
  (forall s, h' s = true -> exists b, reaches St (rp self') s b /\
     (fin b = true \/ exists u, live' b u = true)).
Proof.
  intros fuel lo beg fin Hf loop_fuel. induction loop_fuel; intros h live self Hc; [lia|].
  cbn [shadow_loop].
  destruct (closure_within_exact St eq_dec univ Hall fuel lo h Hf) as (old & -> & Ho1 & Ho2 & Ho3).
  set (live1 := rdst (rsrc live old) old). set (self1 := rdst (rsrc self old) old).
  destruct (img_reach_exact St eq_dec univ Hall fuel self1 (por beg (targets live1)) Hf) as (fw & -> & Hfw).
  destruct (pre_reach_exact St eq_dec univ Hall fuel self1 (por fin (sources live1)) Hf) as (bw & -> & Hbw).
  set (new := pand (pand old fw) bw).
  assert (Hnew : forall s, new s = old s && fw s && bw s).
  { intros s. unfold new. rewrite !(pand_spec St eq_dec univ Hall). auto. }
  assert (Hlive : forall s t, live1 s t = live s t && old s && old t).
  { intros s t. unfold live1. rewrite rdst_spec, rsrc_spec. auto. }
  assert (Hself : forall s t, self1 s t = self s t && old s && old t).
  { intros s t. unfold self1. rewrite rdst_spec, rsrc_spec. auto. }
  destruct (equiv old new) eqn:E.
  - pose proof (proj1 (equiv_spec St univ Hall _ _) E) as E'.
    exists new, live1, self1. split; auto.
    split; [intros s Hs; rewrite <- E' in Hs; auto|].
    split. { intros s t Hs Hst. rewrite <- E' in *. exact (Ho2 s t Hs Hst). }
    split. { intros s t. rewrite Hlive, !E'. auto. }
    split. { intros s t. rewrite Hself, !E'. auto. }
    split.
    + intros s Hs. rewrite Hnew in Hs. apply andb_true_iff in Hs. destruct Hs as (Hs & _).
      apply andb_true_iff in Hs. destruct Hs as (_ & Hs). apply Hfw in Hs. destruct Hs as (b & Hb & Hr).
      exists b. split; auto. rewrite (por_spec St eq_dec univ Hall), orb_true_iff, targets_spec in Hb. auto.
    + intros s Hs. rewrite Hnew in Hs. apply andb_true_iff in Hs. destruct Hs as (_ & Hs).
      apply Hbw in Hs. destruct Hs as (b & Hb & Hr).
      exists b. split; auto. rewrite (por_spec St eq_dec univ Hall), orb_true_iff, sources_spec in Hb. auto.
  - assert (Hlt : cnt new < cnt old).
    { destruct (sat (pminus old new)) eqn:E2.
      - apply (sat_spec St univ Hall) in E2. destruct E2 as (s & Hs).
        rewrite (pminus_spec St eq_dec univ Hall) in Hs. apply andb_true_iff in Hs.
        rewrite negb_true_iff in Hs. destruct Hs as (Hs1 & Hs2).
        apply (cnt_lt St univ Hall _ _ s); auto. intros x Hx. rewrite Hnew in Hx.
        destruct (old x); auto.
      - exfalso. pose proof (proj1 (sat_false St univ Hall _) E2) as E3.
        assert (equiv old new = true); [|congruence]. apply (equiv_spec St univ Hall). intros s.
        specialize (E3 s). rewrite (pminus_spec St eq_dec univ Hall) in E3. rewrite Hnew in *.
        destruct (old s), (fw s), (bw s); simpl in *; auto; discriminate. }
    assert (Hle : cnt old <= cnt h) by (apply cnt_le; auto).
    destruct (IHloop_fuel new live1 self1) as (h' & live' & self' & H1 & H2 & H3 & H4 & H5 & H6 & H7); [lia|].
    exists h', live', self'. split; auto.
    assert (Hno : forall s, h' s = true -> old s = true).
    { intros s Hs. apply H2 in Hs. rewrite Hnew in Hs. destruct (old s); auto. }
    split; [auto|]. split; auto.
    split. { intros s t. rewrite H4, Hlive. specialize (Hno s) as A1. specialize (Hno t) as A2.
      destruct (live s t), (h' s), (h' t), (old s), (old t); auto; simpl in *; intuition discriminate. }
    split. { intros s t. rewrite H5, Hself. specialize (Hno s) as A1. specialize (Hno t) as A2.
      destruct (self s t), (h' s), (h' t), (old s), (old t); auto; simpl in *; intuition discriminate. }
    auto.
Qed.
End Basic.
