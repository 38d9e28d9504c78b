(** Lemmas about shadow_ck. *)
From Coq Require Import List Arith Bool Lia.
From Verif Require Import FinLib ReachModel ReachSpec ReachProofs StabModel StabSpec StabProofs.
Import ListNotations.

Section Shadow.
Variable St : Type.
Variable eq_dec : forall x y : St, {x = y} + {x <> y}.
Variable univ : list St.
Hypothesis Hall : forall s, In s univ.
Variable fuel : nat.
Hypothesis Hf : length univ < fuel.
Variable s : sys St.
Variable pcs : list (St -> St -> bool).
Variables lo hi : St -> St -> bool.

Notation N := (length univ).
Notation rp := (rp St).
Notation invb := (invariant St s).
Notation Ab := (closed_assume St s).
Notation same := (same_shadow St s).
Notation spec := (shadow_xn St s).

Definition IA (x : St) : Prop := invb x = true /\ Ab x = true.
Definition vis (x y : St) : Prop := visible St (rp spec) (rp same) x y.

Lemma inv_spec : forall x, pand St eq_dec univ invb Ab x = true <-> IA x.
Proof. intros x. rewrite (pand_spec St eq_dec univ Hall), andb_true_iff. reflexivity. Qed.

Lemma style_eqb_true : forall a b, style_eqb a b = true <-> a = b.
Proof. intros [] []; simpl; split; congruence. Qed.
Lemma scope_eqb_true : forall a b, scope_eqb a b = true <-> a = b.
Proof. intros [] []; simpl; split; congruence. Qed.
Lemma behav_eqb_true : forall a b, behav_eqb a b = true <-> a = b.
Proof. intros [] []; simpl; split; congruence. Qed.

(** * The direct branch *)

Definition direct_ok : Prop :=
  closed St (rp lo) IA /\
  (style St s <> FutureAndClosed ->
     (forall x y, IA x -> rp spec x y -> rp hi x y) /\
     (forall x y, IA x -> rp lo x y -> rp spec x y)) /\
  (behav St s = FutureActiveShadow \/ style St s = FutureAndActiveShadow ->
     forall x, IA x -> exists y, rp hi x y).

Lemma shadow_direct_spec :
  match shadow_direct St eq_dec univ s lo hi with
  | ShadowOk _ H => H = pand St eq_dec univ invb Ab /\ direct_ok
  | ShadowFail _ => ~ direct_ok
  | ShadowAbort _ => False
  end.
Proof.
  unfold shadow_direct. set (I := pand St eq_dec univ invb Ab).
  assert (HI : forall x, I x = true <-> IA x) by apply inv_spec.
  destruct (subset St univ (img St eq_dec univ lo I) I) eqn:E1; cbn [negb].
  2:{ intros (H & _). assert (subset St univ (img St eq_dec univ lo I) I = true); [|congruence].
      apply (subset_spec St univ Hall). intros y Hy. apply (img_spec St eq_dec univ Hall) in Hy.
      destruct Hy as (x & Hx & Hxy). apply HI. apply HI in Hx. exact (H x y Hx Hxy). }
  assert (C1 : closed St (rp lo) IA).
  { intros x y Hx Hxy. apply HI. apply (proj1 (subset_spec St univ Hall _ _) E1).
    apply (img_spec St eq_dec univ Hall). exists x. split; auto. apply HI. auto. }
  destruct (negb (style_eqb (style St s) FutureAndClosed) &&
            negb (rsubset St univ (rsrc St eq_dec univ spec I) hi)) eqn:E2.
  { intros (_ & H & _). apply andb_true_iff in E2. destruct E2 as (E2 & E3).
    rewrite negb_true_iff in E2, E3.
    assert (Hs : style St s <> FutureAndClosed).
    { intros X. apply style_eqb_true in X. congruence. }
    assert (rsubset St univ (rsrc St eq_dec univ spec I) hi = true); [|congruence].
    apply (rsubset_spec St univ Hall). intros x y Hxy. rewrite (rsrc_spec St eq_dec univ Hall) in Hxy.
    apply andb_true_iff in Hxy. destruct (H Hs) as (H1 & _). apply (H1 x y); [apply HI|]; tauto. }
  destruct (negb (style_eqb (style St s) FutureAndClosed) &&
            negb (rsubset St univ (rsrc St eq_dec univ lo I) spec)) eqn:E3.
  { intros (_ & H & _). apply andb_true_iff in E3. destruct E3 as (E3 & E4).
    rewrite negb_true_iff in E3, E4.
    assert (Hs : style St s <> FutureAndClosed).
    { intros X. apply style_eqb_true in X. congruence. }
    assert (rsubset St univ (rsrc St eq_dec univ lo I) spec = true); [|congruence].
    apply (rsubset_spec St univ Hall). intros x y Hxy. rewrite (rsrc_spec St eq_dec univ Hall) in Hxy.
    apply andb_true_iff in Hxy. destruct (H Hs) as (_ & H1). apply (H1 x y); [apply HI|]; tauto. }
  assert (C2 : style St s <> FutureAndClosed ->
     (forall x y, IA x -> rp spec x y -> rp hi x y) /\
     (forall x y, IA x -> rp lo x y -> rp spec x y)).
  { intros Hs. assert (X : style_eqb (style St s) FutureAndClosed = false).
    { destruct (style_eqb (style St s) FutureAndClosed) eqn:X; auto. apply style_eqb_true in X. contradiction. }
    rewrite X in E2, E3. cbn [negb andb] in E2, E3. apply negb_false_iff in E2. apply negb_false_iff in E3.
    split; intros x y Hx Hxy.
    - apply (proj1 (rsubset_spec St univ Hall _ _) E2). rewrite (rsrc_spec St eq_dec univ Hall).
      apply andb_true_iff. split; auto. apply HI. auto.
    - apply (proj1 (rsubset_spec St univ Hall _ _) E3). rewrite (rsrc_spec St eq_dec univ Hall).
      apply andb_true_iff. split; auto. apply HI. auto. }
  destruct ((behav_eqb (behav St s) FutureActiveShadow || style_eqb (style St s) FutureAndActiveShadow)
          && negb (subset St univ I (sources St eq_dec univ hi))) eqn:E4.
  { intros (_ & _ & H). apply andb_true_iff in E4. destruct E4 as (E4 & E5). apply negb_true_iff in E5.
    apply orb_true_iff in E4. rewrite behav_eqb_true, style_eqb_true in E4.
    assert (subset St univ I (sources St eq_dec univ hi) = true); [|congruence].
    apply (subset_spec St univ Hall). intros x Hx. apply (sources_spec St eq_dec univ Hall).
    apply (H E4). apply HI. auto. }
  split; auto. split; auto. split; auto. intros Hs x Hx.
  rewrite <- behav_eqb_true, <- style_eqb_true, <- orb_true_iff in Hs. rewrite Hs in E4.
  cbn [andb] in E4. apply negb_false_iff in E4. apply (sources_spec St eq_dec univ Hall).
  apply (proj1 (subset_spec St univ Hall _ _) E4). apply HI. auto.
Qed.

(** * The general branch *)

Hypothesis same_refl : forall x, rp same x x.
Hypothesis same_sym : forall x y, rp same x y -> rp same y x.
Hypothesis same_trans : forall x y z, rp same x y -> rp same y z -> rp same x z.

(** Steps the invariant style allows inside the invariant. *)
Definition allowed (x y : St) : Prop :=
  match style St s with
  | FutureAndSilent => False
  | FutureAndActiveShadow => vis x y
  | _ => rp same x y \/ vis x y
  end.

(** Invisible steps of the implementation inside the invariant. *)
Definition stutter (x y : St) : Prop := rp lo x y /\ rp same x y /\ IA x.

Record core_ok (scc : St -> bool) (core H : St -> bool) : Prop := {
  core_sub : forall x, core x = true -> H x = true;
  inv_sub : forall x, H x = true -> IA x;
  core_closed : closed St (rp lo) (fun x => core x = true);
  inv_closed : closed St (rp lo) (fun x => H x = true);
  core_scc : probabilistic St s = false -> forall x, scc x = true -> core x = true;
  core_trap : probabilistic St s = true ->
    forall X : St -> Prop, (forall x, X x -> scc x = true /\ core x = false /\ exists y, rp lo x y) ->
    (forall x, X x -> held St pcs (fun _ _ => false) X x) -> forall x, ~ X x;
  core_nonempty : (exists x, IA x) -> exists x, core x = true;
  core_steps : forall x y, core x = true -> rp lo x y -> rp hi x y /\ allowed x y;
  core_states : scope St s <> FutureInvariant ->
    forall x, IA x -> exists y, core y = true /\ rp same x y;
  core_moves : scope St s <> FutureInvariant ->
    forall x y, IA x -> vis x y -> style St s <> FutureAndSilent /\
    exists x' y', core x' = true /\ core y' = true /\ rp hi x' y' /\ rp same x x' /\ rp same y y';
  core_leads : forall x, core x = true -> exists y,
    reaches St (fun a b => rp hi a b /\ rp same a b /\ core b = true) x y /\ core y = true /\
    ((forall z, ~ vis y z) \/ exists z, rp hi y z /\ vis y z /\ core z = true);
  core_progress : probabilistic St s = false ->
    forall c, on_cycle St stutter c -> scc c = true -> forall z, ~ vis c z;
  core_active : behav St s = FutureActiveShadow ->
    (forall x y, scc x = true -> stutter x y -> False) /\
    (forall x, core x = true -> exists y, rp hi x y /\ core y = true);
  core_reach : forall x, H x = true -> exists y, core y = true /\ reaches St (rp hi) x y;
  direct_eq : scope St s = DirectInvariant -> forall x, IA x -> H x = true
}.

Lemma closure_within_self : forall p q c,
  closure_within St eq_dec univ fuel lo p = Some c ->
  (forall x, q x = true -> p x = true) -> closed St (rp lo) (fun x => q x = true) ->
  (forall x, q x = true -> c x = true) /\ (forall x, c x = true -> p x = true) /\
  closed St (rp lo) (fun x => c x = true).
Proof.
  intros p q c E H1 H2.
  destruct (closure_within_exact St eq_dec univ Hall fuel lo p Hf) as (c' & E' & A1 & A2 & A3).
  rewrite E in E'. inversion E'; subst c'. split; auto. apply (A3 (fun x => q x = true)); auto.
Qed.

(** Enlarging along steps whose sources are in the invariant. *)
Lemma enlarge_spec : forall xn core,
  (forall x y, xn x y = true -> rp hi x y /\ IA x) ->
  (forall x, core x = true -> IA x) -> closed St (rp lo) (fun x => core x = true) ->
  exists H, enlarge St eq_dec univ fuel lo xn core = Some H /\
  (forall x, core x = true -> H x = true) /\ (forall x, H x = true -> IA x) /\
  closed St (rp lo) (fun x => H x = true) /\
  (forall x, H x = true -> exists y, core y = true /\ reaches St (rp hi) x y).
Proof.
  intros xn core Hx Hc Hcl. unfold enlarge.
  destruct (pre_reach_exact St eq_dec univ Hall fuel xn core Hf) as (p & -> & Hp).
  destruct (closure_within St eq_dec univ fuel lo p) as [H|] eqn:E.
  2:{ destruct (closure_within_exact St eq_dec univ Hall fuel lo p Hf) as (c & E' & _). congruence. }
  destruct (closure_within_self p core H E) as (A1 & A2 & A3); auto.
  { intros x Hx'. apply Hp. exists x. split; auto. apply reaches_refl. }
  exists H. split; auto. split; auto.
  assert (B : forall x, H x = true -> exists y, core y = true /\ reaches St (rp xn) x y).
  { intros x Hx'. apply Hp. auto. }
  split; [|split; auto].
  - intros x Hx'. destruct (B x Hx') as (y & Hy & n & Hn). destruct n.
    + apply steps_0 in Hn. subst. auto.
    + apply steps_S in Hn. destruct Hn as (u & Hu & _). apply (Hx x u Hu).
  - intros x Hx'. destruct (B x Hx') as (y & Hy & n & Hn). exists y. split; auto. exists n.
    revert Hn. apply steps_mono. intros a b Hab. apply (Hx a b Hab).
Qed.

Notation shself := (rsrc St eq_dec univ same (pand St eq_dec univ invb Ab)).
Notation shlive := (rsrc St eq_dec univ (projr St eq_dec univ same spec) (pand St eq_dec univ invb Ab)).

Lemma shself_spec : forall x y, shself x y = true <-> rp same x y /\ IA x.
Proof.
  intros x y. rewrite (rsrc_spec St eq_dec univ Hall), andb_true_iff, inv_spec. reflexivity.
Qed.
Lemma shlive_spec : forall x y, shlive x y = true <-> vis x y /\ IA x.
Proof.
  intros x y. rewrite (rsrc_spec St eq_dec univ Hall), andb_true_iff, inv_spec, (projr_spec St eq_dec univ Hall).
  reflexivity.
Qed.
Lemma stutter_spec : forall x y, rand St eq_dec univ lo shself x y = true <-> stutter x y.
Proof.
  intros x y. rewrite (rand_spec St eq_dec univ Hall), andb_true_iff, shself_spec. unfold stutter. reflexivity.
Qed.
Lemma vis_same : forall x x' y, rp same x x' -> vis x y -> vis x' y.
Proof. intros x x' y H (a & b & H1 & H2 & H3). exists a, b. split; eauto. Qed.
Lemma vis_same_r : forall x y y', rp same y y' -> vis x y -> vis x y'.
Proof. intros x y y' H (a & b & H1 & H2 & H3). exists a, b. split; eauto. Qed.

Lemma stutter_reaches_same : forall x y, reaches St stutter x y -> rp same x y.
Proof.
  intros x y (n & Hn). revert x Hn. induction n; intros x Hn.
  - apply steps_0 in Hn. subst. auto.
  - apply steps_S in Hn. destruct Hn as (u & (_ & Hu & _) & Hn). eauto.
Qed.

Lemma cycle_mono : forall (R Q : St -> St -> Prop), (forall a b, R a b -> Q a b) ->
  forall c, on_cycle St R c -> on_cycle St Q c.
Proof. intros R Q H c (n & Hn). exists n. revert Hn. apply steps_mono. auto. Qed.
Lemma reaches_mono : forall (R Q : St -> St -> Prop), (forall a b, R a b -> Q a b) ->
  forall x y, reaches St R x y -> reaches St Q x y.
Proof. intros R Q H x y (n & Hn). exists n. revert Hn. apply steps_mono. auto. Qed.

Lemma rp_ext_cycle : forall r (Q : St -> St -> Prop), (forall a b, r a b = true <-> Q a b) ->
  forall c, on_cycle St (rp r) c <-> on_cycle St Q c.
Proof. intros r Q H c. split; apply cycle_mono; intros a b Hab; apply H; auto. Qed.

(** The first check: no cycle of invisible steps where the specification wants
    to move. *)
Lemma stutter_check : forall scc,
  cycle_closed St (rp lo) (fun x => scc x = true) ->
  exists c, cycle_ck_within St eq_dec univ fuel (rand St eq_dec univ lo shself)
    (pand St eq_dec univ scc (sources St eq_dec univ shlive)) = Some c /\
  (cyc_found St c = false -> forall c, on_cycle St stutter c -> scc c = true -> forall z, ~ vis c z).
Proof.
  intros scc Hscc. set (P := pand St eq_dec univ scc (sources St eq_dec univ shlive)).
  assert (HP : forall x, P x = true <-> scc x = true /\ exists z, vis x z /\ IA x).
  { intros x. unfold P. rewrite (pand_spec St eq_dec univ Hall), andb_true_iff, (sources_spec St eq_dec univ Hall).
    split; intros (H1 & z & Hz); (split; [auto|]); exists z; apply shlive_spec; auto. }
  set (r := rand St eq_dec univ lo shself).
  assert (Hr : forall x y, r x y = true <-> stutter x y) by (intros; apply stutter_spec).
  assert (Hcy : forall c, on_cycle St stutter c -> IA c).
  { intros c (n & Hn). apply steps_S in Hn. destruct Hn as (u & (_ & _ & H) & _). auto. }
  assert (Hcc : cycle_closed St (rp r) (fun x => P x = true)).
  { intros x c Hx Hxc Hc. apply HP in Hx. destruct Hx as (Hx & z & Hz & Hi).
    assert (Hxc' : reaches St stutter x c) by (revert Hxc; apply reaches_mono; apply Hr).
    assert (Hc' : on_cycle St stutter c) by (revert Hc; apply cycle_mono; apply Hr).
    apply HP. split.
    - apply (Hscc x c Hx); [revert Hxc'; apply reaches_mono|revert Hc'; apply cycle_mono];
      intros a b (H & _); auto.
    - exists z. split; [|apply Hcy; auto]. eapply vis_same; [|eauto]. apply stutter_reaches_same. auto. }
  destruct (cycle_ck_exact St eq_dec univ Hall fuel r None (Some P) Hf Hcc) as (sc & E & _ & H3).
  eexists. split; [exact E|]. cbn [cyc_found]. intros Hn c Hc Hs z Hz.
  assert (sat St univ sc = true); [|congruence]. apply H3. exists c. split.
  - apply HP. split; auto. exists z. split; auto.
  - revert Hc. apply cycle_mono. intros a b. apply Hr.
Qed.

Notation run_general scc := (shadow_general St eq_dec univ fuel s pcs lo hi scc).

Theorem shadow_general_ok : forall scc,
  (probabilistic St s = false -> cycle_closed St (rp lo) (fun x => scc x = true)) ->
  exists res, run_general scc = Some res /\
  match res with
  | ShadowFail _ => True
  | ShadowAbort _ => False
  | ShadowOk _ H => exists core, core_ok scc core H
  end.
Proof.
  intros scc Hscc. unfold shadow_general.
  set (I := pand St eq_dec univ invb Ab).
  assert (HI : forall x, I x = true <-> IA x) by apply inv_spec.
  pose proof shself_spec as Hss. pose proof shlive_spec as Hsl. pose proof stutter_spec as Hstu.
  fold I in Hss, Hsl, Hstu.
  set (shs := rsrc St eq_dec univ same I) in *.
  set (shl := rsrc St eq_dec univ (projr St eq_dec univ same spec) I) in *.
  set (nonprogress := if probabilistic St s then _ else _).
  assert (Hnp : exists b, nonprogress = Some b /\ (b = false -> probabilistic St s = false ->
     forall c, on_cycle St stutter c -> scc c = true -> forall z, ~ vis c z)).
  { unfold nonprogress. destruct (probabilistic St s) eqn:Ep.
    - unfold prob_livelock_ck.
      destruct (prob_loop_exact St eq_dec univ Hall pcs (shl) fuel I lo Hf) as (k & out & E & _).
      fold I in E; try fold shs in E; try fold shl in E; rewrite E. eexists. split; [reflexivity|]. discriminate.
    - destruct (stutter_check scc (Hscc eq_refl)) as (c & E & H). fold I in E; try fold shs in E; try fold shl in E; rewrite E. eauto. }
  destruct Hnp as (b & -> & Hnp). destruct b; [eexists; split; [reflexivity|exact Logic.I]|].
  specialize (Hnp eq_refl).
  set (live0 := if style_eqb (style St s) FutureAndSilent then rfalse St else _).
  set (self1 := if style_eqb (style St s) FutureAndSilent then rfalse St else _).
  set (self0 := if style_eqb (style St s) FutureAndActiveShadow then rfalse St else _).
  assert (Hlive0 : forall x y, live0 x y = true <->
    rp hi x y /\ vis x y /\ IA x /\ style St s <> FutureAndSilent).
  { intros x y. unfold live0. destruct (style_eqb (style St s) FutureAndSilent) eqn:E.
    - apply style_eqb_true in E. unfold rfalse. split; [discriminate|]. intros (_ & _ & _ & H). contradiction.
    - assert (style St s <> FutureAndSilent) by (intros X; apply style_eqb_true in X; congruence).
      rewrite (rand_spec St eq_dec univ Hall), andb_true_iff, Hsl. unfold ReachProofs.rp. tauto. }
  assert (Hself0 : forall x y, self0 x y = true <->
    rp hi x y /\ rp same x y /\ IA x /\ style St s <> FutureAndSilent /\ style St s <> FutureAndActiveShadow).
  { intros x y. unfold self0. destruct (style_eqb (style St s) FutureAndActiveShadow) eqn:E.
    - apply style_eqb_true in E. unfold rfalse. split; [discriminate|]. intros (_ & _ & _ & _ & H). contradiction.
    - unfold self1. destruct (style_eqb (style St s) FutureAndSilent) eqn:E2.
      + apply style_eqb_true in E2. unfold rfalse. split; [discriminate|]. intros (_ & _ & _ & H & _). contradiction.
      + assert (style St s <> FutureAndSilent) by (intros X; apply style_eqb_true in X; congruence).
        assert (style St s <> FutureAndActiveShadow) by (intros X; apply style_eqb_true in X; congruence).
        rewrite (rand_spec St eq_dec univ Hall), andb_true_iff, Hss. unfold ReachProofs.rp. tauto. }
  clearbody live0 self0. clear self1.
  set (beg := pminus St eq_dec univ I (targets St eq_dec univ shl)).
  set (fin := pminus St eq_dec univ I (sources St eq_dec univ shl)).
  set (h0 := pminus St eq_dec univ I _).
  assert (Hh0 : forall x, h0 x = true -> IA x /\ forall y, rp lo x y -> live0 x y = true \/ self0 x y = true).
  { intros x Hx. unfold h0 in Hx. rewrite (pminus_spec St eq_dec univ Hall), andb_true_iff, negb_true_iff in Hx.
    destruct Hx as (Hx & Hn). split; [apply HI; auto|]. intros y Hy.
    destruct (live0 x y || self0 x y) eqn:E; [apply orb_true_iff in E; auto|].
    exfalso. assert (X : sources St eq_dec univ (rminus St eq_dec univ lo (ror St eq_dec univ live0 self0)) x = true).
    { apply (sources_spec St eq_dec univ Hall). exists y.
      rewrite (rminus_spec St eq_dec univ Hall), (ror_spec St eq_dec univ Hall), E.
      apply andb_true_iff. split; auto. }
    congruence. }
  destruct (shadow_loop_spec St eq_dec univ Hall fuel lo beg fin Hf fuel h0 live0 self0)
    as (core & live & self & -> & L1 & L2 & L3 & L4 & L5 & L6).
  { pose proof (cnt_N St univ h0). lia. }
  assert (Hcore : forall x, core x = true -> IA x) by (intros x Hx; apply Hh0; auto).
  assert (Hcs : forall x y, core x = true -> rp lo x y ->
    ror St eq_dec univ live self x y = true).
  { intros x y Hx Hxy. rewrite (ror_spec St eq_dec univ Hall), L3, L4, Hx.
    pose proof (L2 x y Hx Hxy) as Hy. cbn beta in Hy. rewrite Hy, !andb_true_r.
    apply orb_true_iff. apply (Hh0 x); auto. }
  assert (Hlive : forall x y, live x y = true -> rp hi x y /\ vis x y /\ IA x /\ core x = true /\ core y = true
            /\ style St s <> FutureAndSilent).
  { intros x y H. rewrite L3 in H. apply andb_true_iff in H. destruct H as (H & Hy).
    apply andb_true_iff in H. destruct H as (H & Hx). apply Hlive0 in H. tauto. }
  assert (Hself : forall x y, self x y = true -> rp hi x y /\ rp same x y /\ IA x /\ core x = true /\ core y = true
            /\ style St s <> FutureAndSilent /\ style St s <> FutureAndActiveShadow).
  { intros x y H. rewrite L4 in H. apply andb_true_iff in H. destruct H as (H & Hy).
    apply andb_true_iff in H. destruct H as (H & Hx). apply Hself0 in H. tauto. }
  destruct (rsubset St univ (rsrc St eq_dec univ lo core) (ror St eq_dec univ live self)) eqn:Ecl; cbn [negb].
  2:{ exfalso. assert (X : rsubset St univ (rsrc St eq_dec univ lo core) (ror St eq_dec univ live self) = true); [|congruence].
      apply (rsubset_spec St univ Hall). intros x y H. rewrite (rsrc_spec St eq_dec univ Hall) in H.
      apply andb_true_iff in H. apply Hcs; tauto. }
  destruct (scope_eqb (scope St s) FutureInvariant && negb (sat St univ core)) eqn:E1;
    [eexists; split; [reflexivity|exact Logic.I]|].
  destruct (negb (scope_eqb (scope St s) FutureInvariant) &&
    negb (equiv St univ (proj St eq_dec univ same I) (proj St eq_dec univ same core))) eqn:E2;
    [eexists; split; [reflexivity|exact Logic.I]|].
  destruct (negb (scope_eqb (scope St s) FutureInvariant) &&
    negb (requiv St univ (projr St eq_dec univ same shl) (projr St eq_dec univ same live))) eqn:E3;
    [eexists; split; [reflexivity|exact Logic.I]|].
  assert (Hst : scope St s <> FutureInvariant ->
    forall x, IA x -> exists y, core y = true /\ rp same x y).
  { intros Hs x Hx. assert (X : scope_eqb (scope St s) FutureInvariant = false).
    { destruct (scope_eqb (scope St s) FutureInvariant) eqn:X; auto. apply scope_eqb_true in X. contradiction. }
    rewrite X in E2. cbn [negb andb] in E2. apply negb_false_iff in E2.
    pose proof (proj1 (equiv_spec St univ Hall _ _) E2 x) as E.
    assert (Y : proj St eq_dec univ same I x = true).
    { apply (proj_spec St eq_dec univ Hall). exists x. split; [apply same_refl|apply HI; auto]. }
    rewrite E in Y. apply (proj_spec St eq_dec univ Hall) in Y. destruct Y as (y & H1 & H2). exists y. auto. }
  assert (Hmv : scope St s <> FutureInvariant ->
    forall x y, IA x -> vis x y -> style St s <> FutureAndSilent /\
    exists x' y', core x' = true /\ core y' = true /\ rp hi x' y' /\ rp same x x' /\ rp same y y').
  { intros Hs x y Hx Hv. assert (X : scope_eqb (scope St s) FutureInvariant = false).
    { destruct (scope_eqb (scope St s) FutureInvariant) eqn:X; auto. apply scope_eqb_true in X. contradiction. }
    rewrite X in E3. cbn [negb andb] in E3. apply negb_false_iff in E3.
    pose proof (proj1 (requiv_spec St univ Hall _ _) E3 x y) as E.
    assert (Y : projr St eq_dec univ same shl x y = true).
    { apply (projr_spec St eq_dec univ Hall). exists x, y. split; [apply same_refl|]. split; [apply same_refl|].
      apply Hsl. auto. }
    rewrite E in Y. apply (projr_spec St eq_dec univ Hall) in Y. destruct Y as (x' & y' & H1 & H2 & H3).
    apply Hlive in H3. split; [tauto|]. exists x', y'. unfold ReachProofs.rp. tauto. }
  assert (Hne : (exists x, IA x) -> exists x, core x = true).
  { intros (x & Hx). destruct (scope_eqb (scope St s) FutureInvariant) eqn:X.
    - cbn [andb] in E1. apply negb_false_iff in E1. apply (sat_spec St univ Hall). auto.
    - destruct (Hst) with (x := x) as (y & Hy & _); eauto.
      intros Y. apply scope_eqb_true in Y. congruence. }
  clear E1 E2 E3.
  set (outside := if probabilistic St s then _ else _).
  assert (Hout : exists b, outside = Some b /\ (b = false ->
    (probabilistic St s = false -> forall x, scc x = true -> core x = true) /\
    (probabilistic St s = true ->
      forall X : St -> Prop, (forall x, X x -> scc x = true /\ core x = false /\ exists y, rp lo x y) ->
      (forall x, X x -> held St pcs (fun _ _ => false) X x) -> forall x, ~ X x))).
  { unfold outside. destruct (probabilistic St s).
    - unfold prob_livelock_ck.
      destruct (prob_loop_exact St eq_dec univ Hall pcs (rfalse St) fuel (pminus St eq_dec univ scc core) lo Hf)
        as (k & out & -> & _ & _ & _ & Hg).
      eexists. split; [reflexivity|]. intros Hb. split; [discriminate|]. intros _ X HX1 HX2 x Hx.
      assert (out x = true).
      { apply (Hg X); auto. intros y Hy. destruct (HX1 y Hy) as (H1 & H2 & H3).
        split; [rewrite (pminus_spec St eq_dec univ Hall), H1, H2; auto|].
        apply (sources_spec St eq_dec univ Hall). exact H3. }
      pose proof (proj1 (sat_false St univ Hall _) Hb x). congruence.
    - eexists. split; [reflexivity|]. intros Hb. apply negb_false_iff in Hb. split; [|discriminate].
      intros _. exact (proj1 (subset_spec St univ Hall _ _) Hb). }
  destruct Hout as (b & -> & Hout). destruct b; [eexists; split; [reflexivity|exact Logic.I]|].
  destruct (Hout eq_refl) as (Hout1 & Hout2). clear Hout.
  set (active := if behav_eqb (behav St s) FutureActiveShadow then _ else _).
  assert (Hact : exists b, active = Some b /\ (b = true -> behav St s = FutureActiveShadow ->
    (forall x y, scc x = true -> stutter x y -> False) /\
    (forall x, core x = true -> exists y, rp hi x y /\ core y = true))).
  { unfold active. destruct (behav_eqb (behav St s) FutureActiveShadow) eqn:E.
    2:{ exists true. split; auto. intros _ X. apply behav_eqb_true in X. congruence. }
    unfold active_ck.
    destruct (overlap St univ scc (sources St eq_dec univ (rand St eq_dec univ lo shs))) eqn:E1.
    { eexists. split; [reflexivity|]. discriminate. }
    
    set (sx := rtab St eq_dec univ _).
    assert (Hsx : forall x y, sx x y = true -> live x y = true).
    { intros x y H. unfold sx in H. rewrite (rtab_spec St eq_dec univ Hall) in H. apply andb_true_iff in H. tauto. }
    assert (Hcc : cycle_closed St (rp sx) (fun x => start_states St (Some core) x = true)).
    { apply closed_cycle_closed. intros x y Hx Hxy. apply Hsx in Hxy. apply Hlive in Hxy. cbn [start_states]. tauto. }
    destruct (cycle_ck_exact St eq_dec univ Hall fuel sx None (Some core) Hf Hcc) as (sc & Esc & Hsc & _).
    assert (Esc' : cycle_ck_within St eq_dec univ fuel sx core = Some (mkCycle St (sat St univ sc) (Some sc) None)) by exact Esc.
    rewrite Esc'. cbn [cyc_found cyc_scc].
    destruct (negb (sat St univ sc)); [eexists; split; [reflexivity|discriminate]|].
    destruct (weak_exact St eq_dec univ Hall fuel hi sc core None Hf) as (b & out & Ew & [(lim & X & _)|(k & _ & _ & Hb & _)]);
      [discriminate|].
    rewrite Ew. exists b. split; auto. intros -> _. split.
    - intros x y Hx Hst'. assert (overlap St univ scc (sources St eq_dec univ (rand St eq_dec univ lo shs)) = true).
      { apply (overlap_spec St univ Hall). exists x. split; auto. apply (sources_spec St eq_dec univ Hall).
        exists y. apply Hstu. auto. }
      congruence.
    - intros x Hx. destruct (proj1 Hb eq_refl x Hx) as (j & n & f & Hn & H0 & (Hr & Ha) & Hi).
      destruct n.
      + rewrite H0 in Hi. apply Hsc in Hi. destruct Hi as (c1 & c2 & _ & _ & _ & (m & Hm) & (q & Hq)).
        assert (Hxy : exists y, rp sx x y).
        { destruct m; [apply steps_0 in Hm; subst c2; apply steps_S in Hq; destruct Hq as (u & Hu & _); eauto
                      |apply steps_S in Hm; destruct Hm as (u & Hu & _); eauto]. }
        destruct Hxy as (y & Hy). apply Hsx in Hy. apply Hlive in Hy. exists y. tauto.
      + exists (f 1). split; [rewrite <- H0; apply Hr; lia|apply Ha; lia]. }
  destruct Hact as (b & -> & Hact). destruct b; [|eexists; split; [reflexivity|exact Logic.I]].
  specialize (Hact eq_refl).
  set (enlarged := match style St s with FutureAndShadow => _ | _ => _ end).
  assert (Hen : exists H, enlarged = Some H /\
    (forall x, core x = true -> H x = true) /\ (forall x, H x = true -> IA x) /\
    closed St (rp lo) (fun x => H x = true) /\
    (forall x, H x = true -> exists y, core y = true /\ reaches St (rp hi) x y)).
  { unfold enlarged. destruct (style St s).
    - exists core. repeat split; auto; try (apply Hcore; auto). intros x Hx. exists x. split; auto. apply reaches_refl.
    - exists core. repeat split; auto; try (apply Hcore; auto). intros x Hx. exists x. split; auto. apply reaches_refl.
    - apply enlarge_spec; auto. intros x y Hxy. rewrite (rand_spec St eq_dec univ Hall), andb_true_iff in Hxy.
      destruct Hxy as (H1 & H2). split; auto. rewrite (ror_spec St eq_dec univ Hall), orb_true_iff in H2.
      destruct H2 as [H2|H2]; [apply Hss in H2|apply Hsl in H2]; tauto.
    - apply enlarge_spec; auto. intros x y Hxy. rewrite (rand_spec St eq_dec univ Hall), andb_true_iff in Hxy.
      destruct Hxy as (H1 & H2). split; auto. apply Hsl in H2; tauto. }
  destruct Hen as (H & -> & A1 & A2 & A3 & A4).
  destruct (scope_eqb (scope St s) DirectInvariant && negb (equiv St univ H I)) eqn:E5;
    [eexists; split; [reflexivity|exact Logic.I]|].
  eexists. split; [reflexivity|]. exists core. constructor; auto.
  - intros x y Hx Hxy. pose proof (Hcs x y Hx Hxy) as E. rewrite (ror_spec St eq_dec univ Hall) in E.
    apply orb_true_iff in E. destruct E as [E|E]; [apply Hlive in E|apply Hself in E]; split; try tauto;
    unfold allowed; destruct (style St s); tauto.
  - intros x Hx. destruct (L6 x Hx) as (y & (n & Hn) & Hy).
    assert (Hyc : core y = true).
    { destruct n; [apply steps_0 in Hn; subst; auto|]. apply steps_S_r in Hn. destruct Hn as (u & _ & Hu).
      apply Hself in Hu. tauto. }
    exists y. split; [|split; auto].
    + exists n. revert Hn. apply steps_mono. intros a b Hab. apply Hself in Hab. tauto.
    + destruct Hy as [Hy|(z & Hz)].
      * left. intros z Hz. unfold fin in Hy. rewrite (pminus_spec St eq_dec univ Hall), andb_true_iff, negb_true_iff in Hy.
        assert (sources St eq_dec univ shl y = true); [|destruct Hy; congruence].
        apply (sources_spec St eq_dec univ Hall). exists z. apply Hsl. auto.
      * right. exists z. apply Hlive in Hz. tauto.
  - intros Hs x Hx. apply HI in Hx. rewrite Hs in E5. cbn [scope_eqb andb] in E5. apply negb_false_iff in E5.
    rewrite (proj1 (equiv_spec St univ Hall _ _) E5). auto.
Qed.
End Shadow.
