(** Lemmas about stabilization_ck. *)
From Coq Require Import List Arith Bool Lia.
From Verif Require Import FinLib ReachModel ReachSpec ReachProofs StabModel StabSpec StabProofs StabProofs2.
Import ListNotations.

Section Stab.
Variable St : Type.
Variable eq_dec : forall x y : St, {x = y} + {x <> y}.
Variable univ : list St.
Hypothesis Hall : forall s, In s univ.
Variable fuel : nat.
Hypothesis Hf : length univ < fuel.
Variable s : sys St.
Variable opt : options.
Variable pcs : list (St -> St -> bool).
Variables lo hi : St -> St -> bool.

Notation N := (length univ).
Notation rp := (rp St).
Notation invb := (invariant St s).
Notation Ab := (closed_assume St s).
Notation same := (same_shadow St s).
Notation spec := (shadow_xn St s).
Notation IA := (IA St s).
Notation P p := (fun x => p x = true).

Hypothesis same_refl : forall x, rp same x x.
Hypothesis same_sym : forall x y, rp same x y -> rp same y x.
Hypothesis same_trans : forall x y z, rp same x y -> rp same y z -> rp same x z.
Hypothesis Hpcs : probabilistic St s = true ->
  forall x y, rp lo x y <-> exists pc, In pc pcs /\ rp pc x y.

(** What the layer counter waits for. *)
Definition settles (k : nat) : Prop :=
  settled St (rp lo) (P Ab) (if count_convergence_layers opt then Some (P invb) else None) k.

Definition into (T : St -> bool) (x y : St) : bool := negb (T x) && T y.

Definition cyc_fact (scc : St -> bool) (nl : nat) : Prop :=
  (probabilistic St s = false ->
    (0 < max_nlayers opt /\ nl = max_nlayers opt + 1 /\ forall i, i < max_nlayers opt -> ~ settles i) \/
    (exists k, nl = k + 1 /\ (max_nlayers opt = 0 \/ k + 1 <= max_nlayers opt) /\
       settles k /\ (forall i, i < k -> ~ settles i) /\
       forall x, scc x = true <-> between_cycles St (rp lo) (P Ab) x)) /\
  (probabilistic St s = true -> nl = 1 /\
    exists T, (forall x, T x = true -> IA x) /\ closed St (rp lo) (P T) /\
      (forall C : St -> Prop, (forall x, C x -> IA x) -> closed St (rp lo) C -> forall x, C x -> T x = true) /\
      (forall x, scc x = true -> Ab x = true /\ held St pcs (into T) (P scc) x) /\
      (forall X : St -> bool, (forall x, X x = true -> Ab x = true) ->
         (forall x, X x = true -> held St pcs (into T) (P X) x) -> (exists x, X x = true) ->
         exists Y : St -> Prop, (forall x, Y x -> X x = true /\ scc x = true) /\
           (forall x, Y x -> held St pcs (into T) Y x) /\ exists x, Y x)).

Lemma held_weaken : forall g X x, held St pcs g X x -> held St pcs (fun _ _ => false) X x.
Proof.
  intros g X x (pc & H1 & H2 & H3). exists pc. split; auto. split; auto. intros t Ht. split; auto. apply H3; auto.
Qed.

Lemma find_cycles_spec : closed St (rp lo) (P Ab) ->
  exists scc nl, find_cycles St eq_dec univ fuel s opt pcs lo = Some (scc, nl) /\ cyc_fact scc nl.
Proof.
  intros Hcl. unfold find_cycles, cyc_fact. destruct (probabilistic St s) eqn:Ep.
  - specialize (Hpcs eq_refl).
    destruct (closure_within_exact St eq_dec univ Hall fuel lo (pand St eq_dec univ invb Ab) Hf) as (T & -> & T1 & T2 & T3).
    unfold prob_livelock_scc.
    destruct (prob_loop_exact St eq_dec univ Hall pcs (into T) fuel Ab lo Hf) as (k & S1 & E1 & _ & _ & S3 & S4).
    change (fun a b : St => negb (T a) && T b) with (into T). rewrite E1.
    destruct (prob_img_spec St eq_dec univ Hall lo fuel S1 (targets St eq_dec univ lo)) as (scc & -> & I1 & I2 & I3).
    { pose proof (cnt_N St univ (pand St eq_dec univ S1 (targets St eq_dec univ lo))). lia. }
    exists scc, 1. split; auto. split; [discriminate|]. intros _. split; auto.
    exists T. split; [intros x Hx; apply (inv_spec St eq_dec univ Hall); auto|]. split; auto.
    split. { intros C HC1 HC2. apply T3; auto. intros x Hx. apply (inv_spec St eq_dec univ Hall). auto. }
    assert (Hsub : forall x, scc x = true -> S1 x = true).
    { intros x Hx. apply I1 in Hx. eapply pand_le_l; eauto. }
    split.
    + intros x Hx. destruct (S3 x (Hsub x Hx)) as (Ha & pc & H1 & H2 & H3). split; auto.
      exists pc. split; auto. split; auto. intros t Ht. destruct (H3 t Ht) as (H4 & H5). split; auto.
      apply (I3 (fun y => scc y = true \/ y = t)); auto.
      * intros y [Hy| ->]; auto. rewrite (pand_spec St eq_dec univ Hall), H4. simpl.
        apply (targets_spec St eq_dec univ Hall). exists x. apply Hpcs. eauto.
      * intros y [Hy| ->].
        -- destruct (I2 y Hy) as (u & Hu & Huy). eauto.
        -- exists x. split; auto. apply Hpcs. eauto.
    + intros X HX1 HX2 (x0 & Hx0).
      assert (HXS : forall x, X x = true -> S1 x = true).
      { apply (S4 (P X)); auto. intros x Hx. split; auto. apply (sources_spec St eq_dec univ Hall).
        destruct (HX2 x Hx) as (pc & H1 & (t & H2) & _). exists t. apply Hpcs. eauto. }
      set (RX := fun a b => lo a b && X a && X b).
      assert (HRX : forall a b, RX a b = true <-> lo a b = true /\ X a = true /\ X b = true).
      { intros a b. unfold RX. rewrite !andb_true_iff. tauto. }
      set (Y := fun x => exists c, X c = true /\ on_cycle St (rp RX) c /\ reaches St (rp RX) c x).
      assert (HYX : forall x, Y x -> X x = true).
      { intros x (c & Hc & _ & n & Hn). destruct n; [apply steps_0 in Hn; subst; auto|].
        apply steps_S_r in Hn. destruct Hn as (u & _ & Hu). apply HRX in Hu. tauto. }
      assert (HYt : forall x, Y x -> held St pcs (into T) Y x).
      { intros x Hx. destruct (HX2 x (HYX x Hx)) as (pc & H1 & H2 & H3). exists pc. split; auto. split; auto.
        intros t Ht. destruct (H3 t Ht) as (H4 & H5). split; auto.
        pose proof (HYX x Hx) as HX'. destruct Hx as (c & Hc1 & Hc2 & Hc3). exists c. split; auto. split; auto.
        eapply reaches_trans; [exact Hc3|]. apply reaches_step. apply HRX. split; auto. apply Hpcs. eauto. }
      exists Y. split; [|split; auto].
      * intros x Hx. split; auto. apply (I3 Y); auto.
        -- intros y Hy. rewrite (pand_spec St eq_dec univ Hall), (HXS y (HYX y Hy)). simpl.
           apply (targets_spec St eq_dec univ Hall). destruct Hy as (c & _ & (k0 & Hk) & n & Hn).
           destruct n; [apply steps_0 in Hn; subst y; apply steps_S_r in Hk; destruct Hk as (u & _ & Hu)
                       |apply steps_S_r in Hn; destruct Hn as (u & _ & Hu)]; exists u; apply HRX in Hu; tauto.
        -- intros y (c & Hc & (k0 & Hk) & n & Hn).
           destruct n.
           ++ apply steps_0 in Hn. subst y. apply steps_S_r in Hk. destruct Hk as (u & Hu1 & Hu2). exists u.
              split; [|apply HRX in Hu2; tauto]. exists c. split; auto. split; [|exists k0; auto].
              exists k0. apply steps_S_r. eauto.
           ++ apply steps_S_r in Hn. destruct Hn as (u & Hu1 & Hu2). exists u.
              split; [|apply HRX in Hu2; tauto]. exists c. split; auto. split; [exists k0; auto|]. exists n. auto.
      * destruct (fwd_cycle St eq_dec univ Hall RX X) with (s := x0) as (c & Hc1 & Hc2 & _); auto.
        { intros x Hx. destruct (HX2 x Hx) as (pc & H1 & (t & H2) & H3). exists t. destruct (H3 t H2) as (H4 & _).
          split; auto. apply HRX. split; auto. apply Hpcs. eauto. }
        exists c, c. split; auto. split; auto. apply reaches_refl.
  - set (io := if count_convergence_layers opt then Some invb else None).
    destruct (cycle_ck_layers St eq_dec univ Hall fuel lo io (max_nlayers opt) (Some Ab) Hf)
      as [(n & E & _ & H1 & H2)|(scc & m & E & H1 & H2 & H3 & H4)].
    { apply closed_cycle_closed. exact Hcl. }
    + assert (E' : cycle_ck St eq_dec univ fuel lo (Some (max_nlayers opt))
        (if count_convergence_layers opt then Some invb else None) (Some Ab)
        = Some (mkCycle St false None (Some (max_nlayers opt + 1)))) by exact E.
      rewrite E'. cbn [cyc_scc cyc_layers]. eexists. eexists. split; [reflexivity|]. split; [|discriminate].
      intros _. left. split; auto. split; auto. intros i Hi Hs. apply (H2 i Hi).
      apply stop_settled; auto. unfold settles in Hs. unfold io. destruct (count_convergence_layers opt); exact Hs.
    + assert (E' : cycle_ck St eq_dec univ fuel lo (Some (max_nlayers opt))
        (if count_convergence_layers opt then Some invb else None) (Some Ab)
        = Some (mkCycle St (sat St univ scc) (Some scc) (Some (m + 1)))) by exact E.
      rewrite E'. cbn [cyc_scc cyc_layers]. eexists. eexists. split; [reflexivity|]. split; [|discriminate].
      intros _. right. exists m. split; auto. split; auto.
      assert (Hss : forall i, stop St eq_dec univ lo (start_states St (Some Ab)) io i <-> settles i).
      { intros i. rewrite (stop_settled St eq_dec univ Hall). unfold settles, io.
        destruct (count_convergence_layers opt); reflexivity. }
      split; [apply Hss; auto|]. split; [intros i Hi Hs; apply (H4 i Hi); apply Hss; auto|]. exact H1.
Qed.

(** Neither shadow variables nor an eventual invariant. *)
Definition direct : Prop := shadow_puppet St s = false /\ scope St s <> FutureInvariant.

Definition inv_fact (scc core H : St -> bool) : Prop :=
  (direct /\ (forall x, core x = true <-> IA x) /\ (forall x, H x = true <-> IA x) /\ direct_ok St s lo hi) \/
  (~ direct /\ core_ok St s pcs lo hi scc core H).

Lemma shadow_ck_spec : forall scc,
  (probabilistic St s = false -> cycle_closed St (rp lo) (P scc)) ->
  exists res, shadow_ck St eq_dec univ fuel s pcs lo hi scc = Some res /\
  match res with
  | ShadowFail _ => (behav St s = FutureSilent /\ exists x, scc x = true) \/ (direct /\ ~ direct_ok St s lo hi) \/ ~ direct
  | ShadowAbort _ => False
  | ShadowOk _ H => (behav St s = FutureSilent -> forall x, scc x = false) /\ exists core, inv_fact scc core H
  end.
Proof.
  intros scc Hscc. unfold shadow_ck.
  destruct (behav_eqb (behav St s) FutureSilent && sat St univ scc) eqn:E1.
  { eexists. split; [reflexivity|]. left. apply andb_true_iff in E1. rewrite behav_eqb_true, (sat_spec St univ Hall) in E1. auto. }
  assert (Hsil : behav St s = FutureSilent -> forall x, scc x = false).
  { intros X. apply behav_eqb_true in X. rewrite X in E1. cbn [andb] in E1.
    exact (proj1 (sat_false St univ Hall _) E1). }
  destruct (negb (shadow_puppet St s) && negb (scope_eqb (scope St s) FutureInvariant)) eqn:E2.
  - assert (Hd : direct).
    { apply andb_true_iff in E2. rewrite !negb_true_iff in E2. split; [tauto|]. intros X.
      apply scope_eqb_true in X. destruct E2. congruence. }
    eexists. split; [reflexivity|]. pose proof (shadow_direct_spec St eq_dec univ Hall s lo hi) as H.
    destruct (shadow_direct St eq_dec univ s lo hi) as [| |H0]; auto.
    destruct H as (-> & H). split; auto. exists (pand St eq_dec univ invb Ab). left.
    split; auto. split; [apply (inv_spec St eq_dec univ Hall)|]. split; [apply (inv_spec St eq_dec univ Hall)|auto].
  - assert (Hd : ~ direct).
    { intros (H1 & H2). rewrite H1 in E2. cbn [negb andb] in E2. apply negb_false_iff in E2.
      apply scope_eqb_true in E2. contradiction. }
    destruct (shadow_general_ok St eq_dec univ Hall fuel Hf s pcs lo hi same_refl same_sym same_trans scc Hscc)
      as (res & -> & H).
    exists res. split; auto. destruct res; auto. split; auto. destruct H as (core & H). exists core. right. auto.
Qed.

Notation near r A I := (ReachSpec.near St (rp r) A I).

(** The reported number of weak convergence layers. *)
Definition reach_fact (scc H : St -> bool) (nl n : nat) : Prop :=
  let max_distance (r : St -> St -> bool) (J : St -> Prop) :=
    exists k, n = k + 1 /\ (forall j x, near r (P Ab) J j x -> near r (P Ab) J k x) /\
      (forall i, i < k -> exists x, near r (P Ab) J (S i) x /\ ~ near r (P Ab) J i x) in
  ((exists x y, lo x y <> hi x y) ->
     (forall x, Ab x = true -> exists j, near hi (P Ab) (P H) j x) /\ max_distance hi (P H)) /\
  ((forall x y, lo x y = hi x y) ->
     if synchronous opt then n = nl
     else max_distance lo (if count_convergence_layers opt then P H
                           else fun x => deadlocked St (rp lo) x \/ scc x = true)).

Definition verdict_ok (v : verdict St) : Prop :=
  match v with
  | NoOverlap _ => forall x, ~ IA x
  | SelfLoop _ => probabilistic St s = false /\ exists x, Ab x = true /\ rp lo x x
  | NotClosed _ => exists x y, Ab x = true /\ rp lo x y /\ Ab y = false
  | Deadlock _ => exists x, Ab x = true /\ invb x = false /\ deadlocked St (rp hi) x
  | TooManyLayers _ => 0 < max_nlayers opt /\ probabilistic St s = false /\
      closed St (rp lo) (P Ab) /\ forall i, i < max_nlayers opt -> ~ settles i
  | Livelock _ => closed St (rp lo) (P Ab) /\ exists scc nl x, cyc_fact scc nl /\
      (max_nlayers opt = 0 \/ nl <= max_nlayers opt) /\ scc x = true /\ invb x = false
  | BadInvariant _ => closed St (rp lo) (P Ab) /\ exists scc nl, cyc_fact scc nl /\
      (max_nlayers opt = 0 \/ nl <= max_nlayers opt) /\
      ((behav St s = FutureSilent /\ exists x, scc x = true) \/
       (direct /\ ~ direct_ok St s lo hi) \/ ~ direct)
  | DeadlockInNew _ => ~ direct
  | NotWeaklyConverging _ => (exists x y, lo x y <> hi x y) /\
      (direct -> exists x, Ab x = true /\ forall j, ~ near hi (P Ab) IA j x)
  | Aborted _ => False
  | Accepted _ H n m =>
      (exists x, IA x) /\
      (probabilistic St s = false -> forall x, Ab x = true -> ~ rp lo x x) /\
      closed St (rp lo) (P Ab) /\
      (forall x, Ab x = true -> invb x = false -> exists y, rp hi x y) /\
      exists scc core nl rn, cyc_fact scc nl /\
        (max_nlayers opt = 0 \/ nl <= max_nlayers opt) /\
        (forall x, scc x = true -> invb x = true) /\
        (behav St s = FutureSilent -> forall x, scc x = false) /\
        inv_fact scc core H /\
        (forall x, Ab x = true -> H x = false -> exists y, rp hi x y) /\
        reach_fact scc H nl rn /\
        (n, m) = (if count_convergence_steps opt then (nl - 1, rn - 1) else (nl, rn))
  end.

Lemma near_ext : forall r A (I J : St -> Prop), (forall x, I x <-> J x) ->
  forall j x, near r A I j x <-> near r A J j x.
Proof.
  intros r A I J H j x. unfold ReachSpec.near.
  split; intros (n & f & H1 & H2 & H3 & H4); exists n, f; repeat split; auto; try apply H3; apply H; auto.
Qed.

Lemma forallb_false : forall T (f : T -> bool) l, forallb f l = false -> exists x, f x = false.
Proof.
  intros T f l. induction l as [|a l IH]; cbn [forallb]; [discriminate|]. intros H.
  apply andb_false_iff in H. destruct H; eauto.
Qed.
Lemma requiv_false : requiv St univ lo hi = false -> exists x y, lo x y <> hi x y.
Proof.
  intros H. apply forallb_false in H. destruct H as (x & H). apply forallb_false in H.
  destruct H as (y & H). exists x, y. apply eqb_false_iff. auto.
Qed.

Theorem stab_spec : exists v,
  stabilization_ck St eq_dec univ fuel s opt pcs lo hi = Some v /\ verdict_ok v.
Proof.
  unfold stabilization_ck.
  destruct (overlap St univ invb Ab) eqn:E1; cbn [negb].
  2:{ eexists. split; [reflexivity|]. intros x (H1 & H2).
      assert (overlap St univ invb Ab = true); [|congruence]. apply (overlap_spec St univ Hall). eauto. }
  assert (Hne : exists x, IA x) by (apply (overlap_spec St univ Hall); auto).
  destruct (negb (probabilistic St s) && overlap St univ Ab (sources St eq_dec univ (rand St eq_dec univ lo (eqb_st St eq_dec)))) eqn:E2.
  { eexists. split; [reflexivity|]. apply andb_true_iff in E2. rewrite negb_true_iff in E2. destruct E2 as (E2 & E3).
    split; auto. apply (overlap_spec St univ Hall) in E3. destruct E3 as (x & Hx & Hs).
    apply (sources_spec St eq_dec univ Hall) in Hs. destruct Hs as (y & Hy).
    rewrite (rand_spec St eq_dec univ Hall) in Hy. apply andb_true_iff in Hy. destruct Hy as (Hy & He).
    unfold eqb_st in He. destruct (eq_dec x y); [subst|discriminate]. exists y. auto. }
  assert (Hnl : probabilistic St s = false -> forall x, Ab x = true -> ~ rp lo x x).
  { intros Hp x Hx Hxx. rewrite Hp in E2. cbn [negb andb] in E2.
    assert (X : overlap St univ Ab (sources St eq_dec univ (rand St eq_dec univ lo (eqb_st St eq_dec))) = true); [|congruence].
    apply (overlap_spec St univ Hall). exists x. split; auto. apply (sources_spec St eq_dec univ Hall). exists x.
    rewrite (rand_spec St eq_dec univ Hall). apply andb_true_iff. split; auto.
    unfold eqb_st. destruct (eq_dec x x); auto. }
  destruct (negb (taut St univ Ab) && sat St univ (pminus St eq_dec univ (img St eq_dec univ lo Ab) Ab)) eqn:E3.
  { eexists. split; [reflexivity|]. apply andb_true_iff in E3. destruct E3 as (_ & E3).
    apply (sat_spec St univ Hall) in E3. destruct E3 as (y & Hy).
    rewrite (pminus_spec St eq_dec univ Hall), andb_true_iff, negb_true_iff, (img_spec St eq_dec univ Hall) in Hy.
    destruct Hy as ((x & H1 & H2) & H3). exists x, y. auto. }
  assert (Hcl : closed St (rp lo) (P Ab)).
  { intros x y Hx Hxy. cbn beta in *. destruct (taut St univ Ab) eqn:Et.
    - apply (proj1 (taut_spec St univ Hall _) Et).
    - cbn [negb andb] in E3. pose proof (proj1 (sat_false St univ Hall _) E3 y) as H.
      rewrite (pminus_spec St eq_dec univ Hall) in H.
      assert (X : img St eq_dec univ lo Ab y = true) by (apply (img_spec St eq_dec univ Hall); eauto).
      rewrite X in H. simpl in H. apply negb_false_iff in H. auto. }
  destruct (subset St univ (pand St eq_dec univ (pnot St eq_dec univ invb) Ab) (sources St eq_dec univ hi)) eqn:E4; cbn [negb].
  2:{ eexists. split; [reflexivity|]. cbn [verdict_ok].
      destruct (sat St univ (pminus St eq_dec univ (pand St eq_dec univ (pnot St eq_dec univ invb) Ab) (sources St eq_dec univ hi))) eqn:E5.
      - apply (sat_spec St univ Hall) in E5. destruct E5 as (x & Hx).
        rewrite (pminus_spec St eq_dec univ Hall), (pand_spec St eq_dec univ Hall), (pnot_spec St eq_dec univ Hall),
          !andb_true_iff, !negb_true_iff in Hx.
        exists x. repeat split; try tauto. intros y Hy.
        assert (sources St eq_dec univ hi x = true); [|destruct Hx; congruence].
        apply (sources_spec St eq_dec univ Hall). exists y. auto.
      - exfalso. assert (subset St univ (pand St eq_dec univ (pnot St eq_dec univ invb) Ab) (sources St eq_dec univ hi) = true); [|congruence].
        apply (subset_spec St univ Hall). intros x Hx. pose proof (proj1 (sat_false St univ Hall _) E5 x) as H.
        rewrite (pminus_spec St eq_dec univ Hall), Hx in H. simpl in H. apply negb_false_iff in H. auto. }
  assert (Hdl : forall x, Ab x = true -> invb x = false -> exists y, rp hi x y).
  { intros x H1 H2. apply (sources_spec St eq_dec univ Hall). apply (proj1 (subset_spec St univ Hall _ _) E4).
    rewrite (pand_spec St eq_dec univ Hall), (pnot_spec St eq_dec univ Hall), H1, H2. auto. }
  destruct (find_cycles_spec Hcl) as (scc & nl & -> & Hcyc).
  destruct ((0 <? max_nlayers opt) && (max_nlayers opt <? nl)) eqn:E5.
  { eexists. split; [reflexivity|]. apply andb_true_iff in E5. rewrite !Nat.ltb_lt in E5. destruct E5 as (H1 & H2).
    split; auto. destruct (probabilistic St s) eqn:Ep.
    - destruct Hcyc as (_ & Hcyc). destruct (Hcyc Ep) as (-> & _). lia.
    - split; auto. split; auto. destruct Hcyc as (Hcyc & _). destruct (Hcyc Ep) as [(_ & _ & H)|(k & -> & H & _)]; auto. lia. }
  assert (Hmax : max_nlayers opt = 0 \/ nl <= max_nlayers opt).
  { apply andb_false_iff in E5. rewrite !Nat.ltb_ge in E5. lia. }
  destruct (subset St univ scc invb) eqn:E6; cbn [negb].
  2:{ eexists. split; [reflexivity|]. split; auto. exists scc, nl.
      destruct (sat St univ (pminus St eq_dec univ scc invb)) eqn:E7.
      - apply (sat_spec St univ Hall) in E7. destruct E7 as (x & Hx).
        rewrite (pminus_spec St eq_dec univ Hall), !andb_true_iff, !negb_true_iff in Hx. exists x. tauto.
      - exfalso. assert (subset St univ scc invb = true); [|congruence].
        apply (subset_spec St univ Hall). intros x Hx. pose proof (proj1 (sat_false St univ Hall _) E7 x) as H.
        rewrite (pminus_spec St eq_dec univ Hall), Hx in H. simpl in H. apply negb_false_iff in H. auto. }
  assert (Hsi : forall x, scc x = true -> invb x = true) by (exact (proj1 (subset_spec St univ Hall _ _) E6)).
  assert (Hcc : probabilistic St s = false -> cycle_closed St (rp lo) (P scc)).
  { intros Ep. destruct Hcyc as (Hcyc & _). destruct (Hcyc Ep) as [(H0 & -> & _)|(k & _ & _ & _ & _ & H)]; [lia|].
    intros x c Hx Hxc Hc. apply H in Hx. destruct Hx as (c1 & c2 & A1 & A2 & A3 & _). apply H.
    exists c1, c. repeat split; auto; [eapply reaches_trans; eauto|apply reaches_refl]. }
  destruct (shadow_ck_spec scc Hcc) as (res & -> & Hres). destruct res as [| |H].
  { eexists. split; [reflexivity|]. split; auto. exists scc, nl. auto. }
  { contradiction. }
  destruct Hres as (Hsil & core & Hinv).
  destruct (subset St univ (pand St eq_dec univ (pnot St eq_dec univ H) Ab) (sources St eq_dec univ hi)) eqn:E7; cbn [negb].
  2:{ eexists. split; [reflexivity|]. cbn [verdict_ok]. intros Hd.
      destruct Hinv as [(_ & _ & HH & _)|(Hd' & _)]; [|contradiction].
      assert (subset St univ (pand St eq_dec univ (pnot St eq_dec univ H) Ab) (sources St eq_dec univ hi) = true); [|congruence].
      apply (subset_spec St univ Hall). intros x Hx. apply (sources_spec St eq_dec univ Hall).
      rewrite (pand_spec St eq_dec univ Hall), (pnot_spec St eq_dec univ Hall), andb_true_iff, negb_true_iff in Hx.
      apply Hdl; [tauto|]. destruct (invb x) eqn:Ei; auto. exfalso.
      assert (H x = true); [|destruct Hx; congruence]. apply HH. split; tauto. }
  assert (Hdl2 : forall x, Ab x = true -> H x = false -> exists y, rp hi x y).
  { intros x H1 H2. apply (sources_spec St eq_dec univ Hall). apply (proj1 (subset_spec St univ Hall _ _) E7).
    rewrite (pand_spec St eq_dec univ Hall), (pnot_spec St eq_dec univ Hall), H1, H2. auto. }
  set (reach := if negb (requiv St univ lo hi) then _ else _).
  assert (Hreach : exists b rn, reach = Some (b, Some rn) /\
    match b with
    | true => reach_fact scc H nl rn
    | false => (exists x y, lo x y <> hi x y) /\ exists x, Ab x = true /\ forall j, ~ near hi (P Ab) (P H) j x
    end).
  { unfold reach. destruct (requiv St univ lo hi) eqn:Eq; cbn [negb].
    - pose proof (proj1 (requiv_spec St univ Hall _ _) Eq) as Hq. destruct (synchronous opt) eqn:Es; cbn [negb].
      + exists true, nl. split; auto. split; [intros (x & y & X); rewrite Hq in X; contradiction|].
        rewrite Es. auto.
      + set (J := if count_convergence_layers opt then H else _).
        destruct (weak_exact St eq_dec univ Hall fuel lo J Ab (Some 0) Hf)
          as (b & out & Ew & [(lim & X & Hl & _)|(k & W1 & W2 & W3 & W4 & _)]); [inversion X; lia|].
        rewrite Ew, W4. exists true, (k + 1). split; auto.
        split; [intros (x & y & X); rewrite Hq in X; contradiction|].
        intros _. rewrite Es. exists k. split; auto.
        assert (HJ : forall x, J x = true <-> (if count_convergence_layers opt then P H
                           else fun x => deadlocked St (rp lo) x \/ scc x = true) x).
        { intros x. unfold J. destruct (count_convergence_layers opt); [tauto|].
          rewrite (por_spec St eq_dec univ Hall), (pnot_spec St eq_dec univ Hall), orb_true_iff, negb_true_iff.
          assert (X : sources St eq_dec univ lo x = false <-> deadlocked St (rp lo) x).
          { split.
            - intros X y Hy. assert (sources St eq_dec univ lo x = true); [|congruence].
              apply (sources_spec St eq_dec univ Hall). exists y. auto.
            - intros X. destruct (sources St eq_dec univ lo x) eqn:E; auto.
              apply (sources_spec St eq_dec univ Hall) in E. destruct E as (y & Hy). destruct (X y Hy). }
          tauto. }
        split.
        * intros j x Hn. apply (near_ext lo (P Ab) _ _ HJ). apply (W1 j). apply (near_ext lo (P Ab) _ _ HJ). auto.
        * intros i Hi. destruct (W2 i Hi) as (x & Hx1 & Hx2). exists x.
          split; [apply (near_ext lo (P Ab) _ _ HJ); auto|]. intros Hn. apply Hx2.
          apply (near_ext lo (P Ab) _ _ HJ). auto.
    - assert (Hq : exists x y, lo x y <> hi x y).
      { apply requiv_false. exact Eq. }
      destruct (weak_exact St eq_dec univ Hall fuel hi H Ab (Some 0) Hf)
        as (b & out & Ew & [(lim & X & Hl & _)|(k & W1 & W2 & W3 & W4 & _)]); [inversion X; lia|].
      rewrite Ew, W4. exists b, (k + 1). split; auto. destruct b.
      + split.
        * intros _. split; [apply W3; auto|]. exists k. auto.
        * intros X. destruct Hq as (x & y & Hq). rewrite X in Hq. contradiction.
      + split; auto.
        destruct (sat St univ (wspan St eq_dec univ hi Ab H k)) eqn:Ek.
        * apply (sat_spec St univ Hall) in Ek. destruct Ek as (x & Hx). apply (wspan_spec St eq_dec univ Hall) in Hx.
          exists x. split; [tauto|]. intros j Hj. destruct Hx as (_ & Hx). apply Hx. apply (W1 j). auto.
        * exfalso. assert (false = true); [|discriminate]. apply W3. intros x Hx. exists k.
          apply (near_dec St eq_dec univ Hall); auto. apply (proj1 (sat_false St univ Hall _) Ek). }
  destruct Hreach as (b & rn & -> & Hreach). destruct b.
  - eexists. split; [reflexivity|].
    assert (G : forall n m, (n, m) = (if count_convergence_steps opt then (nl - 1, rn - 1) else (nl, rn)) ->
       verdict_ok (Accepted St H n m)).
    { intros n m Hnm. split; auto. split; auto. split; auto. split; auto.
      exists scc, core, nl, rn. repeat (split; [assumption|]). assumption. }
    destruct (count_convergence_steps opt); apply G; auto.
  - eexists. split; [reflexivity|]. destruct Hreach as (Hq & x & Hx & Hn). split; auto. intros Hd.
    destruct Hinv as [(_ & _ & HH & _)|(Hd' & _)]; [|contradiction]. exists x. split; auto. intros j Hj.
    apply (Hn j). revert Hj. apply near_ext. intros y. split; apply HH.
Qed.
End Stab.
