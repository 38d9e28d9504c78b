(** Proofs about the state-set algorithms. *)
From Coq Require Import List Arith Bool Lia.
From Verif Require Import FinLib ReachModel ReachSpec.
Import ListNotations.

(** * Executions *)
Section Runs.
Variable St : Type.
Variable R : St -> St -> Prop.

Lemma steps_0 : forall s t, steps St R 0 s t <-> s = t.
Proof.
  intros s t. split.
  - intros (f & <- & <- & _). reflexivity.
  - intros <-. exists (fun _ => s). repeat split. intros i Hi. lia.
Qed.

Lemma steps_S : forall n s t, steps St R (S n) s t <-> exists u, R s u /\ steps St R n u t.
Proof.
  intros n s t. split.
  - intros (f & H0 & Hn & Hr). exists (f 1). split.
    + rewrite <- H0. apply Hr. lia.
    + exists (fun i => f (S i)). repeat split; auto. intros i Hi. apply Hr. lia.
  - intros (u & Hu & f & H0 & Hn & Hr).
    exists (fun i => match i with 0 => s | S j => f j end). repeat split; auto.
    intros [|i] Hi; [rewrite H0; auto | apply Hr; lia].
Qed.

Lemma steps_app : forall n m s u t,
  steps St R n s u -> steps St R m u t -> steps St R (n + m) s t.
Proof.
  induction n; intros m s u t H1 H2.
  - apply steps_0 in H1. subst. auto.
  - apply steps_S in H1. destruct H1 as (v & Hv & H1). cbn [Nat.add].
    apply steps_S. exists v. split; auto. eapply IHn; eauto.
Qed.

Lemma steps_one : forall s t, R s t -> steps St R 1 s t.
Proof. intros s t H. apply steps_S. exists t. split; auto. apply steps_0. auto. Qed.

Lemma steps_S_r : forall n s t, steps St R (S n) s t <-> exists u, steps St R n s u /\ R u t.
Proof.
  intros n s t. split.
  - intros (f & H0 & Hn & Hr). exists (f n). split.
    + exists f. repeat split; auto. intros i Hi. apply Hr. lia.
    + rewrite <- Hn. apply Hr. lia.
  - intros (u & H1 & H2). replace (S n) with (n + 1) by lia.
    eapply steps_app; eauto. apply steps_one. auto.
Qed.

Lemma steps_split : forall n m s t, steps St R (n + m) s t ->
  exists u, steps St R n s u /\ steps St R m u t.
Proof.
  induction n; intros m s t H.
  - exists s. split; [apply steps_0; auto|exact H].
  - cbn [Nat.add] in H. apply steps_S in H. destruct H as (v & Hv & H).
    destruct (IHn _ _ _ H) as (u & H1 & H2). exists u. split; auto.
    apply steps_S. eauto.
Qed.

Lemma reaches_refl : forall s, reaches St R s s.
Proof. intros s. exists 0. apply steps_0. auto. Qed.
Lemma reaches_trans : forall s t u, reaches St R s t -> reaches St R t u -> reaches St R s u.
Proof. intros s t u (n & H1) (m & H2). exists (n + m). eapply steps_app; eauto. Qed.
Lemma reaches_step : forall s t, R s t -> reaches St R s t.
Proof. intros s t H. exists 1. apply steps_one. auto. Qed.

Lemma closed_steps : forall A, closed St R A -> forall n s t, A s -> steps St R n s t -> A t.
Proof.
  intros A HA n. induction n; intros s t Hs H.
  - apply steps_0 in H. subst. auto.
  - apply steps_S in H. destruct H as (u & Hu & H). apply (IHn u t); auto. exact (HA s u Hs Hu).
Qed.
Lemma closed_reaches : forall A, closed St R A -> forall s t, A s -> reaches St R s t -> A t.
Proof. intros A HA s t Hs (n & H). eapply closed_steps; eauto. Qed.

(** Going round a cycle: a state on a cycle has predecessors at any distance. *)
Lemma cycle_back : forall s, on_cycle St R s -> forall n, exists u,
  steps St R n u s /\ reaches St R s u /\ on_cycle St R u.
Proof.
  intros s (k & Hk). induction n.
  - exists s. split; [apply steps_0; auto|]. split; [apply reaches_refl|exists k; auto].
  - destruct IHn as (u & H1 & (a & H2) & b & H3).
    apply steps_S_r in H3. destruct H3 as (v & Hv1 & Hv2).
    exists v. split; [apply steps_S; eauto|]. split.
    + exists (a + b). eapply steps_app; eauto.
    + exists b. apply steps_S. eauto.
Qed.

Lemma run_run_steps : forall f n, run St R f n -> forall i j, i <= j <= n -> steps St R (j - i) (f i) (f j).
Proof.
  intros f n H i j Hij. exists (fun k => f (i + k)). repeat split.
  - f_equal. lia.
  - f_equal. lia.
  - intros k Hk. replace (i + S k) with (S (i + k)) by lia. apply H. lia.
Qed.
End Runs.

Lemma steps_converse : forall St (R : St -> St -> Prop) n s t,
  steps St R n s t <-> steps St (fun a b => R b a) n t s.
Proof.
  intros St R n. induction n; intros s t.
  - rewrite !steps_0. split; congruence.
  - rewrite steps_S, steps_S_r. split; intros (u & H1 & H2); exists u.
    + split; auto. apply IHn. auto.
    + split; auto. apply IHn. auto.
Qed.
Lemma reaches_converse : forall St (R : St -> St -> Prop) s t,
  reaches St R s t <-> reaches St (fun a b => R b a) t s.
Proof. intros. split; intros (n & H); exists n; apply steps_converse; auto. Qed.

Lemma steps_iff : forall St (R Q : St -> St -> Prop), (forall a b, R a b <-> Q a b) ->
  forall n s t, steps St R n s t <-> steps St Q n s t.
Proof.
  intros St R Q H n s t. split; intros (f & H0 & Hn & Hr); exists f; repeat split; auto;
  intros i Hi; apply H; auto.
Qed.
Lemma steps_mono : forall St (R Q : St -> St -> Prop), (forall a b, R a b -> Q a b) ->
  forall n s t, steps St R n s t -> steps St Q n s t.
Proof.
  intros St R Q H n s t (f & H0 & Hn & Hr). exists f. split; auto. split; auto. intros i Hi. apply H. auto.
Qed.

Section Proofs.
Variable St : Type.
Variable eq_dec : forall x y : St, {x = y} + {x <> y}.
Variable univ : list St.
Hypothesis Hall : forall s, In s univ.

Notation tab := (tab St eq_dec univ).
Notation sat := (sat St univ).
Notation equiv := (equiv St univ).
Notation subset := (subset St univ).
Notation pand := (pand St eq_dec univ).
Notation por := (por St eq_dec univ).
Notation pminus := (pminus St eq_dec univ).
Notation pnot := (pnot St eq_dec univ).
Notation pre := (pre St eq_dec univ).
Notation img := (img St eq_dec univ).
Notation N := (length univ).

Lemma tab_spec : forall p s, tab p s = p s.
Proof.
  intros p s. unfold ReachModel.tab. destruct (in_dec eq_dec s (filter p univ)) as [H|H].
  - apply filter_In in H. symmetry. tauto.
  - destruct (p s) eqn:E; auto. exfalso. apply H. apply filter_In. auto.
Qed.

Lemma sat_spec : forall p, sat p = true <-> exists s, p s = true.
Proof.
  intros p. unfold ReachModel.sat. rewrite existsb_exists. split.
  - intros (s & _ & H). eauto.
  - intros (s & H). eauto.
Qed.
Lemma sat_false : forall p, sat p = false <-> forall s, p s = false.
Proof.
  intros p. split.
  - intros H s. destruct (p s) eqn:E; auto.
    assert (sat p = true) by (apply sat_spec; eauto). congruence.
  - intros H. destruct (sat p) eqn:E; auto. apply sat_spec in E. destruct E as (s & E).
    rewrite H in E. discriminate.
Qed.
Lemma equiv_spec : forall p q, equiv p q = true <-> forall s, p s = q s.
Proof.
  intros p q. unfold ReachModel.equiv. rewrite forallb_forall. split.
  - intros H s. apply eqb_prop. auto.
  - intros H s _. rewrite H. apply eqb_reflx.
Qed.
Lemma subset_spec : forall p q, subset p q = true <-> forall s, p s = true -> q s = true.
Proof.
  intros p q. unfold ReachModel.subset. rewrite forallb_forall. split.
  - intros H s Hs. specialize (H s (Hall s)). rewrite Hs in H. auto.
  - intros H s _. destruct (p s) eqn:E; auto. simpl. auto.
Qed.
Lemma taut_spec : forall p, taut St univ p = true <-> forall s, p s = true.
Proof. intros p. unfold taut. rewrite forallb_forall. split; auto. Qed.
Lemma overlap_spec : forall p q,
  overlap St univ p q = true <-> exists s, p s = true /\ q s = true.
Proof.
  intros p q. unfold overlap. rewrite existsb_exists. split.
  - intros (s & _ & H). apply andb_true_iff in H. eauto.
  - intros (s & H1 & H2). exists s. rewrite H1, H2. auto.
Qed.
Lemma pand_spec : forall p q s, pand p q s = p s && q s.
Proof. intros. unfold ReachModel.pand. apply tab_spec. Qed.
Lemma por_spec : forall p q s, por p q s = p s || q s.
Proof. intros. unfold ReachModel.por. apply tab_spec. Qed.
Lemma pminus_spec : forall p q s, pminus p q s = p s && negb (q s).
Proof. intros. unfold ReachModel.pminus. apply tab_spec. Qed.
Lemma pnot_spec : forall p s, pnot p s = negb (p s).
Proof. intros. unfold ReachModel.pnot. apply tab_spec. Qed.
Lemma pre_spec : forall r p s, pre r p s = true <-> exists t, r s t = true /\ p t = true.
Proof.
  intros. unfold ReachModel.pre. rewrite tab_spec, existsb_exists. split.
  - intros (t & _ & H). apply andb_true_iff in H. eauto.
  - intros (t & H1 & H2). exists t. rewrite H1, H2. auto.
Qed.
Lemma img_spec : forall r p t, img r p t = true <-> exists s, p s = true /\ r s t = true.
Proof.
  intros. unfold ReachModel.img. rewrite tab_spec, existsb_exists. split.
  - intros (s & _ & H). apply andb_true_iff in H. eauto.
  - intros (s & H1 & H2). exists s. rewrite H1, H2. auto.
Qed.

Definition cnt (p : St -> bool) : nat := length (filter p univ).

Lemma cnt_le : forall p q, (forall s, p s = true -> q s = true) -> cnt p <= cnt q.
Proof.
  intros p q H. unfold cnt. clear Hall. induction univ as [|a l IH]; simpl; auto.
  destruct (p a) eqn:E1.
  - rewrite (H a E1). simpl. lia.
  - destruct (q a); simpl; lia.
Qed.
Lemma cnt_lt : forall p q s, (forall s, p s = true -> q s = true) ->
  p s = false -> q s = true -> cnt p < cnt q.
Proof.
  intros p q s H H1 H2. unfold cnt. specialize (Hall s).
  induction univ as [|a l IH]; simpl in *; [tauto|].
  assert (Hle : length (filter p l) <= length (filter q l)).
  { clear -H. induction l as [|b l IH]; simpl; auto.
    destruct (p b) eqn:E; [rewrite (H b E); simpl; lia|destruct (q b); simpl; lia]. }
  destruct Hall as [->|Hin].
  - rewrite H1, H2. simpl. lia.
  - specialize (IH Hin). destruct (p a) eqn:E; [rewrite (H a E); simpl; lia|].
    destruct (q a); simpl; lia.
Qed.
Lemma cnt_N : forall p, cnt p <= N.
Proof.
  intros p. unfold cnt. clear. induction univ as [|a l IH]; simpl; auto.
  destruct (p a); simpl; lia.
Qed.

(** A choice of an element with a decidable property. *)
Lemma choose : forall p : St -> bool, (exists s, p s = true) -> {s | p s = true}.
Proof.
  intros p H. destruct (find p univ) as [s|] eqn:E.
  - exists s. apply find_some in E. tauto.
  - exfalso. destruct H as (s & Hs). pose proof (find_none _ _ E s (Hall s)). congruence.
Qed.

(** * Reachability *)

Section ReachLoop.
Variable step : (St -> bool) -> St -> bool.
Variable E : St -> St -> Prop.
Hypothesis Hstep : forall p t, step p t = true <-> exists s, p s = true /\ E s t.

Lemma reach_loop_spec : forall (p0 : St -> bool) fuel visit layer,
  (forall s, p0 s = true -> visit s = true) ->
  (forall s, visit s = true \/ layer s = true -> exists s0, p0 s0 = true /\ reaches St E s0 s) ->
  (forall s t, visit s = true -> E s t -> visit t = true \/ layer t = true) ->
  (forall s, layer s = true -> visit s = false) ->
  N < fuel + cnt visit ->
  exists v, reach_loop St eq_dec univ step fuel visit layer = Some v /\
  forall t, v t = true <-> exists s, p0 s = true /\ reaches St E s t.
Proof.
  intros p0 fuel. induction fuel; intros visit layer H0 H1 H2 H3 Hf.
  - pose proof (cnt_N visit). lia.
  - cbn [reach_loop]. destruct (sat layer) eqn:Es.
    + apply sat_spec in Es. destruct Es as (x & Hx).
      apply IHfuel.
      * intros s Hs. rewrite por_spec, (H0 s Hs). auto.
      * intros s [Hs|Hs].
        -- rewrite por_spec in Hs. apply orb_true_iff in Hs. auto.
        -- rewrite pminus_spec in Hs. apply andb_true_iff in Hs. destruct Hs as (Hs & _).
           apply Hstep in Hs. destruct Hs as (u & Hu & Hus).
           destruct (H1 u (or_intror Hu)) as (s0 & Hs0 & Hr). exists s0. split; auto.
           eapply reaches_trans; eauto. apply reaches_step. auto.
      * intros s t Hs Hst. rewrite por_spec in Hs. apply orb_true_iff in Hs.
        rewrite por_spec, pminus_spec, por_spec.
        destruct (visit t || layer t) eqn:Ev; auto. right. simpl. rewrite andb_true_r.
        destruct Hs as [Hs|Hs].
        -- destruct (H2 s t Hs Hst) as [H|H]; rewrite H in Ev; rewrite ?orb_true_r in Ev; discriminate.
        -- apply Hstep. eauto.
      * intros s Hs. rewrite pminus_spec in Hs. apply andb_true_iff in Hs.
        destruct Hs as (_ & Hs). apply negb_true_iff in Hs. auto.
      * assert (cnt visit < cnt (por visit layer)).
        { apply cnt_lt with (s := x).
          - intros s Hs. rewrite por_spec, Hs. auto.
          - auto.
          - rewrite por_spec, Hx. apply orb_true_r. }
        lia.
    + rewrite sat_false in Es. exists visit. split; auto. intros t. split.
      * intros Ht. apply H1. auto.
      * intros (s & Hs & Hr).
        eapply closed_reaches with (A := fun s => visit s = true); eauto.
        intros a b Ha Hab. destruct (H2 a b Ha Hab) as [H|H]; auto. rewrite Es in H. discriminate.
Qed.

Lemma reach_exact : forall fuel p, N < fuel ->
  exists v, reach_loop St eq_dec univ step fuel p (pminus (step p) p) = Some v /\
  forall t, v t = true <-> exists s, p s = true /\ reaches St E s t.
Proof.
  intros fuel p Hf. apply reach_loop_spec; auto.
  - intros s [Hs|Hs].
    + exists s. split; auto. apply reaches_refl.
    + rewrite pminus_spec in Hs. apply andb_true_iff in Hs. destruct Hs as (Hs & _).
      apply Hstep in Hs. destruct Hs as (u & Hu & H). exists u. split; auto. apply reaches_step. auto.
  - intros s t Hs Hst. rewrite pminus_spec. destruct (p t) eqn:Ep; auto. right.
    simpl. rewrite andb_true_r. apply Hstep. eauto.
  - intros s Hs. rewrite pminus_spec in Hs. apply andb_true_iff in Hs.
    destruct Hs as (_ & Hs). apply negb_true_iff in Hs. auto.
  - lia.
Qed.
End ReachLoop.

Definition rp (r : St -> St -> bool) : St -> St -> Prop := fun s t => r s t = true.

Theorem img_reach_exact : forall fuel r p, N < fuel ->
  exists v, img_reach St eq_dec univ fuel r p = Some v /\
  forall t, v t = true <-> exists s, p s = true /\ reaches St (rp r) s t.
Proof. intros. apply reach_exact with (E := rp r); auto. intros. apply img_spec. Qed.

Theorem pre_reach_exact : forall fuel r p, N < fuel ->
  exists v, pre_reach St eq_dec univ fuel r p = Some v /\
  forall s, v s = true <-> exists t, p t = true /\ reaches St (rp r) s t.
Proof.
  intros fuel r p Hf.
  destruct (reach_exact (pre r) (fun a b => rp r b a)) with (fuel := fuel) (p := p) as (v & H1 & H2); auto.
  - intros q t. rewrite pre_spec. split; intros (s & Ha & Hb); exists s; auto.
  - exists v. split; auto. intros s. rewrite H2. split; intros (t & Ht & Hr); exists t; split; auto;
    apply reaches_converse; auto.
Qed.

Theorem undirected_reach_exact : forall fuel r p, N < fuel ->
  exists v, undirected_reach St eq_dec univ fuel r p = Some v /\
  forall t, v t = true <->
    exists s, p s = true /\ reaches St (fun a b => rp r a b \/ rp r b a) s t.
Proof.
  intros fuel r p Hf.
  apply (reach_exact (fun l => por (pre r l) (img r l)) (fun a b => rp r a b \/ rp r b a)); auto.
  intros q t. rewrite por_spec, orb_true_iff, pre_spec, img_spec. split.
  - intros [(s & H1 & H2)|(s & H1 & H2)]; exists s; auto.
  - intros (s & H1 & [H2|H2]); eauto.
Qed.

Theorem closure_within_exact : forall fuel r p, N < fuel ->
  exists c, closure_within St eq_dec univ fuel r p = Some c /\
  (forall s, c s = true -> p s = true) /\
  closed St (rp r) (fun s => c s = true) /\
  (forall C : St -> Prop, (forall s, C s -> p s = true) -> closed St (rp r) C ->
     forall s, C s -> c s = true).
Proof.
  intros fuel r p Hf. unfold closure_within.
  destruct (pre_reach_exact fuel r (pnot p) Hf) as (v & -> & Hv).
  exists (pminus p v). split; auto. split; [|split].
  - intros s H. rewrite pminus_spec in H. apply andb_true_iff in H. tauto.
  - intros s t H Hst. rewrite pminus_spec in *. apply andb_true_iff in H. destruct H as (Hp & Hn).
    apply negb_true_iff in Hn.
    assert (Hvt : v t = false).
    { destruct (v t) eqn:E; auto. apply Hv in E. destruct E as (u & Hu & Hr).
      assert (v s = true); [|congruence]. apply Hv. exists u. split; auto.
      eapply reaches_trans; eauto. apply reaches_step. auto. }
    rewrite Hvt. rewrite andb_true_r.
    destruct (p t) eqn:E; auto.
    assert (v t = true); [|congruence]. apply Hv. exists t. rewrite pnot_spec, E.
    split; auto. apply reaches_refl.
  - intros C HC Hcl s Hs. rewrite pminus_spec, (HC s Hs). simpl. apply negb_true_iff.
    destruct (v s) eqn:E; auto. apply Hv in E. destruct E as (t & Ht & Hr).
    rewrite pnot_spec in Ht. rewrite (HC t) in Ht; [discriminate|].
    eapply closed_reaches; eauto.
Qed.

(** * Iterated images *)

Fixpoint span (r : St -> St -> bool) (A : St -> bool) (k : nat) : St -> bool :=
  match k with 0 => A | S k' => img r (span r A k') end.

Lemma span_spec : forall r A k t,
  span r A k t = true <-> exists s, A s = true /\ steps St (rp r) k s t.
Proof.
  intros r A k. induction k; intros t; cbn [span].
  - split.
    + intros H. exists t. split; auto. apply steps_0. auto.
    + intros (s & Hs & H). apply steps_0 in H. subst. auto.
  - rewrite img_spec. split.
    + intros (u & Hu & Hut). apply IHk in Hu. destruct Hu as (s & Hs & H).
      exists s. split; auto. apply steps_S_r. eauto.
    + intros (s & Hs & H). apply steps_S_r in H. destruct H as (u & Hu & Hut).
      exists u. split; auto. apply IHk. eauto.
Qed.

Lemma img_ext : forall r p q, (forall s, p s = q s) -> forall t, img r p t = img r q t.
Proof.
  intros r p q H t. apply eq_true_iff_eq. rewrite !img_spec.
  split; intros (s & H1 & H2); exists s; rewrite ?H in *; rewrite <- ?H in *; auto.
Qed.

Definition fixed (r : St -> St -> bool) (A : St -> bool) (k : nat) : Prop :=
  forall s, span r A k s = span r A (S k) s.

Lemma fixed_later : forall r A k, fixed r A k -> forall j s, span r A (k + j) s = span r A k s.
Proof.
  intros r A k H j. induction j; intros s.
  - f_equal. lia.
  - replace (k + S j) with (S (k + j)) by lia. cbn [span].
    rewrite (img_ext r _ (span r A k)) by auto. symmetry. apply H.
Qed.

Lemma fixed_dec : forall r A k, {fixed r A k} + {~ fixed r A k}.
Proof.
  intros r A k. destruct (equiv (span r A k) (span r A (S k))) eqn:E.
  - left. exact (proj1 (equiv_spec _ _) E).
  - right. intro H. apply (proj2 (equiv_spec _ _)) in H. congruence.
Qed.

(** First fixpoint loop. *)
Definition stop (r : St -> St -> bool) (A : St -> bool) (inv : option (St -> bool)) (k : nat) : Prop :=
  fixed r A k \/
  match inv with Some i => forall t, span r A k t = true -> i t = true | None => False end.

Lemma fwd_null : forall r A inv done fuel j n,
  (exists k, j <= k < j + fuel /\ fixed r A k) ->
  exists k, j <= k /\ fixed r A k /\
    cyc_fwd St eq_dec univ fuel r inv None done n (span r A j) = Some (Fixpoint_at St (span r A k) done).
Proof.
  intros r A inv done fuel. induction fuel; intros j n (k & Hk & Hfix); [lia|].
  cbn [cyc_fwd]. destruct (equiv (span r A j) (img r (span r A j))) eqn:E.
  - exists j. split; auto. split; auto. intros s. cbn [span]. apply equiv_spec. auto.
  - destruct (IHfuel (S j) n) as (k' & H1 & H2 & H3).
    + exists k. split; auto. assert (k <> j); [|lia]. intros ->.
      assert (equiv (span r A j) (img r (span r A j)) = true) by (apply equiv_spec; exact Hfix).
      congruence.
    + exists k'. split; [lia|]. split; auto.
Qed.

Lemma fwd_limit : forall r A inv lim fuel j,
  (exists k, j <= k < j + fuel /\ fixed r A k) -> lim = 0 \/ j + 1 <= lim ->
  (forall i, i < j -> ~ stop r A inv i) ->
  exists res, cyc_fwd St eq_dec univ fuel r inv (Some lim) None (j + 1) (span r A j) = Some res /\
  match res with
  | TooMany _ n => 0 < lim /\ n = lim + 1 /\ forall i, i < lim -> ~ stop r A inv i
  | Fixpoint_at _ sp nl =>
      exists k m, fixed r A k /\ sp = span r A k /\ nl = Some (m + 1) /\ m <= k /\
        stop r A inv m /\ (forall i, i < m -> ~ stop r A inv i) /\ (lim = 0 \/ m + 1 <= lim)
  end.
Proof.
  intros r A inv lim fuel. induction fuel; intros j (k & Hk & Hfix) Hlim Hbefore; [lia|].
  cbn [cyc_fwd]. destruct (equiv (span r A j) (img r (span r A j))) eqn:E.
  - eexists. split; [reflexivity|].
    assert (Hj : fixed r A j) by (intros s; cbn [span]; apply equiv_spec; auto).
    exists j, j. split; auto. split; auto. split; auto. split; [lia|].
    split; [left; auto|]. split; auto.
  - assert (Hnf : ~ fixed r A j).
    { intros H. assert (equiv (span r A j) (img r (span r A j)) = true) by (apply equiv_spec; exact H).
      congruence. }
    assert (Hk' : exists k, S j <= k < S j + fuel /\ fixed r A k).
    { exists k. split; auto. assert (k <> j) by (intros ->; auto). lia. }
    match goal with |- context [if ?b then _ else _] => destruct b eqn:Ei end.
    + destruct (fwd_null r A inv (Some (j + 1)) fuel (S j) (j + 1) Hk') as (k2 & H1 & H2 & H3).
      cbn [span] in H3. rewrite H3. eexists. split; [reflexivity|].
      exists k2, j. split; auto. split; auto. split; auto. split; [lia|]. split; [|split; auto].
      right. destruct inv as [i|]; [|discriminate]. apply subset_spec. auto.
    + assert (Hns : ~ stop r A inv j).
      { intros [H|H]; auto. destruct inv as [i|]; auto. apply subset_spec in H. congruence. }
      destruct ((0 <? lim) && (lim <? j + 1 + 1)) eqn:El.
      * apply andb_true_iff in El. destruct El as (El1 & El2).
        apply Nat.ltb_lt in El1, El2. eexists. split; [reflexivity|].
        split; auto. split; [lia|]. intros i Hi. assert (Hc : i < j \/ i = j) by lia.
        destruct Hc as [Hc| ->]; auto.
      * apply andb_false_iff in El. rewrite !Nat.ltb_ge in El.
        replace (j + 1 + 1) with (S j + 1) by lia.
        apply (IHfuel (S j)); auto.
        -- destruct El; [left; lia|right; lia].
        -- intros i Hi. assert (Hc : i < j \/ i = j) by lia.
           destruct Hc as [Hc| ->]; auto.
Qed.

(** Closed sets: the images decrease, so a fixpoint is reached. *)
Lemma closed_dec : forall r A, closed St (rp r) (fun s => A s = true) ->
  forall k s, span r A (S k) s = true -> span r A k s = true.
Proof.
  intros r A H k. induction k; intros s Hs.
  - cbn [span] in *. apply img_spec in Hs. destruct Hs as (u & Hu & Hus). eapply H; eauto.
  - cbn [span]. cbn [span] in IHk. change (span r A (S (S k))) with (img r (span r A (S k))) in Hs.
    apply img_spec in Hs. apply img_spec. destruct Hs as (u & Hu & Hus). exists u. split; auto.
Qed.

Lemma decreasing_fixed : forall r A,
  (forall k s, span r A (S k) s = true -> span r A k s = true) ->
  exists k, k <= N /\ fixed r A k.
Proof.
  intros r A H.
  assert (G : forall n, (exists k, k < n /\ fixed r A k) \/ cnt (span r A n) + n <= N).
  { induction n.
    - right. pose proof (cnt_N (span r A 0)). lia.
    - destruct IHn as [(k & Hk & Hf)|IHn]; [left; exists k; split; auto|].
      destruct (fixed_dec r A n) as [Hf|Hf]; [left; exists n; split; auto|].
      right. assert (cnt (span r A (S n)) < cnt (span r A n)); [|lia].
      assert (Hx : exists s, span r A n s = true /\ span r A (S n) s = false).
      { destruct (sat (pminus (span r A n) (span r A (S n)))) eqn:E.
        - apply sat_spec in E. destruct E as (s & Hs). rewrite pminus_spec in Hs.
          apply andb_true_iff in Hs. destruct Hs as (H1 & H2). apply negb_true_iff in H2. eauto.
        - exfalso. apply Hf. intros s. rewrite sat_false in E. specialize (E s).
          rewrite pminus_spec in E. destruct (span r A n s) eqn:E1; simpl in E.
          + apply negb_false_iff in E. auto.
          + destruct (span r A (S n) s) eqn:E2; auto. apply H in E2. congruence. }
      destruct Hx as (s & H1 & H2). apply cnt_lt with (s := s); auto. }
  destruct (G (S N)) as [(k & Hk & Hf)|G'].
  - exists k. split; auto. lia.
  - lia.
Qed.

(** Second fixpoint loop. *)
Lemma bwd_spec : forall r fuel sp, cnt sp < fuel ->
  exists T, cyc_bwd St eq_dec univ fuel r sp = Some T /\
  (forall s, T s = true -> sp s = true) /\
  (forall s, T s = true -> exists t, r s t = true /\ T t = true) /\
  (forall U : St -> Prop, (forall s, U s -> sp s = true) ->
     (forall s, U s -> exists t, r s t = true /\ U t) -> forall s, U s -> T s = true).
Proof.
  intros r fuel. induction fuel; intros sp Hf; [lia|].
  cbn [cyc_bwd]. destruct (equiv sp (pand sp (pre r sp))) eqn:E.
  - rewrite equiv_spec in E. exists sp. split; auto. split; auto. split; auto.
    intros s Hs. specialize (E s). rewrite pand_spec, Hs in E. simpl in E. symmetry in E.
    apply pre_spec in E. auto.
  - destruct (IHfuel (pand sp (pre r sp))) as (T & H1 & H2 & H3 & H4).
    + assert (Hx : exists s, sp s = true /\ pand sp (pre r sp) s = false).
      { destruct (sat (pminus sp (pand sp (pre r sp)))) eqn:E'.
        - apply sat_spec in E'. destruct E' as (s & Hs). rewrite pminus_spec in Hs.
          apply andb_true_iff in Hs. destruct Hs as (Ha & Hb). apply negb_true_iff in Hb. eauto.
        - exfalso. rewrite sat_false in E'.
          assert (equiv sp (pand sp (pre r sp)) = true); [|congruence]. apply equiv_spec.
          intros s. specialize (E' s). rewrite pminus_spec in E'. rewrite pand_spec in *.
          destruct (sp s); auto. simpl in *. apply negb_false_iff in E'. auto. }
      destruct Hx as (s & Ha & Hb).
      assert (cnt (pand sp (pre r sp)) < cnt sp); [|lia].
      apply cnt_lt with (s := s); auto. intros s' Hs'. rewrite pand_spec in Hs'.
      apply andb_true_iff in Hs'. tauto.
    + exists T. split; auto. split.
      * intros s Hs. apply H2 in Hs. rewrite pand_spec in Hs. apply andb_true_iff in Hs. tauto.
      * split; auto. intros U HU1 HU2. apply H4; auto. intros s Hs.
        rewrite pand_spec. apply andb_true_iff. split; auto. apply pre_spec.
        destruct (HU2 s Hs) as (t & Ht & HUt). exists t. split; auto.
Qed.

(** A set in which everything has a predecessor (successor) contains a cycle
    before (after) every element. *)
Lemma back_cycle : forall (R : St -> St -> bool) (X : St -> bool),
  (forall s, X s = true -> exists u, X u = true /\ R u s = true) ->
  forall s, X s = true -> exists c, X c = true /\ on_cycle St (rp R) c /\ reaches St (rp R) c s.
Proof.
  intros R X H s Hs.
  assert (Hd : forall x : {s | X s = true}, {y : {s | X s = true} | R (proj1_sig y) (proj1_sig x) = true}).
  { intros [x Hx]. destruct (choose (fun u => X u && R u x)) as [u Hu].
    - destruct (H x Hx) as (u & H1 & H2). exists u. rewrite H1, H2. auto.
    - apply andb_true_iff in Hu. destruct Hu as (Hu1 & Hu2). exists (exist _ u Hu1). auto. }
  set (g := fix g (n : nat) : {s | X s = true} :=
    match n with 0 => exist _ s Hs | S n' => proj1_sig (Hd (g n')) end).
  assert (Hg : forall n, R (proj1_sig (g (S n))) (proj1_sig (g n)) = true).
  { intros n. cbn [g]. destruct (Hd (g n)) as [y Hy]. auto. }
  assert (Hst : forall m n, steps St (rp R) m (proj1_sig (g (n + m))) (proj1_sig (g n))).
  { induction m; intros n.
    - apply steps_0. do 2 f_equal. lia.
    - apply steps_S. exists (proj1_sig (g (n + m))). split; auto.
      replace (n + S m) with (S (n + m)) by lia. apply Hg. }
  destruct (pigeonhole St eq_dec univ (fun n => proj1_sig (g n))) as (i & j & Hij & E); auto.
  exists (proj1_sig (g i)). split; [apply proj2_sig|]. split.
  - exists (j - i - 1). pose proof (Hst (S (j - i - 1)) i) as Hs1.
    replace (i + S (j - i - 1)) with j in Hs1 by lia. rewrite <- E in Hs1. auto.
  - exists i. pose proof (Hst i 0) as Hs1. cbn [Nat.add] in Hs1. auto.
Qed.

Lemma fwd_cycle : forall (R : St -> St -> bool) (X : St -> bool),
  (forall s, X s = true -> exists u, R s u = true /\ X u = true) ->
  forall s, X s = true -> exists c, X c = true /\ on_cycle St (rp R) c /\ reaches St (rp R) s c.
Proof.
  intros R X H s Hs.
  destruct (back_cycle (fun a b => R b a) X) with (s := s) as (c & H1 & (n & H2) & H3); auto.
  - intros x Hx. destruct (H x Hx) as (u & Ha & Hb). eauto.
  - exists c. split; auto. split.
    + exists n. apply steps_converse. auto.
    + apply reaches_converse. auto.
Qed.

(** Every sufficiently long run passes a cycle. *)
Lemma long_run_cycle : forall R f, run St R f N ->
  exists i, i <= N /\ on_cycle St R (f i).
Proof.
  intros R f H. destruct (pigeonhole St eq_dec univ f) as (i & j & Hij & E); auto.
  exists i. split; [lia|]. exists (j - i - 1).
  pose proof (run_run_steps St R f N H i j ltac:(lia)) as Hs.
  replace (S (j - i - 1)) with (j - i) by lia. rewrite <- E in Hs. auto.
Qed.

Notation between_cycles := (between_cycles St).

Lemma closed_cycle_closed : forall R A, closed St R A -> cycle_closed St R A.
Proof. intros R A H s c Hs Hr _. eapply closed_reaches; eauto. Qed.

(** The fixpoint of a closed set, characterised. *)
Lemma scc_char : forall r A k T,
  cycle_closed St (rp r) (fun s => A s = true) ->
  fixed r A k ->
  (forall s, T s = true -> span r A k s = true) ->
  (forall s, T s = true -> exists t, r s t = true /\ T t = true) ->
  (forall U : St -> Prop, (forall s, U s -> span r A k s = true) ->
     (forall s, U s -> exists t, r s t = true /\ U t) -> forall s, U s -> T s = true) ->
  forall s, T s = true <-> between_cycles (rp r) (fun s => A s = true) s.
Proof.
  intros r A k T HA Hfix HT1 HT2 HT3 s. split.
  - intros Hs. destruct (back_cycle r (span r A k)) with (s := s) as (c1 & Hc1 & Hcy1 & Hr1).
    + intros x Hx. rewrite Hfix in Hx. cbn [span] in Hx. apply img_spec in Hx. auto.
    + auto.
    + destruct (fwd_cycle r T HT2 s Hs) as (c2 & Hc2 & Hcy2 & Hr2).
      exists c1, c2. repeat split; auto. apply span_spec in Hc1. destruct Hc1 as (u & Hu & Hr).
      eapply HA; eauto. exists k. auto.
  - intros (c1 & c2 & Ha & Hcy1 & Hr1 & Hr2 & Hcy2).
    apply HT3 with (U := fun u => reaches St (rp r) c1 u /\ reaches St (rp r) u c2); auto.
    + intros u ((l & Hl) & _).
      rewrite <- (fixed_later r A k Hfix l). apply span_spec.
      destruct (cycle_back St (rp r) c1 Hcy1 k) as (v & Hv1 & Hv2 & Hv3).
      exists v. split; [eapply HA; eauto|]. eapply steps_app; eauto.
    + intros u (Hu1 & (l & Hl)). destruct l as [|l].
      * apply steps_0 in Hl. subst u. destruct Hcy2 as (n & Hn). pose proof Hn as Hn'.
        apply steps_S in Hn. destruct Hn as (t & Ht & Hn). exists t. split; auto. split.
        -- eapply reaches_trans; eauto. apply reaches_step. auto.
        -- exists n. auto.
      * apply steps_S in Hl. destruct Hl as (t & Ht & Hl). exists t. split; auto. split.
        -- eapply reaches_trans; eauto. apply reaches_step. auto.
        -- exists l. auto.
Qed.

Lemma shorten : forall R n s t, steps St R (S n) s t -> exists m, 1 <= m <= N /\ steps St R m s t.
Proof.
  intros R n. induction n as [n IH] using lt_wf_ind. intros s t H.
  destruct (le_lt_dec (S n) N) as [Hle|Hgt]; [exists (S n); split; [lia|auto]|].
  destruct H as (f & H0 & Hn & Hr).
  destruct (pigeonhole St eq_dec univ (fun i => f (S i))) as (i & j & Hij & E); auto.
  assert (S1 : steps St R (S i) s (f (S i))).
  { rewrite <- H0. pose proof (run_run_steps St R f (S n) Hr 0 (S i) ltac:(lia)) as Hx.
    rewrite Nat.sub_0_r in Hx. exact Hx. }
  assert (S2 : steps St R (n - j) (f (S j)) t).
  { rewrite <- Hn. replace (n - j) with (S n - S j) by lia.
    apply run_run_steps with (n := S n); auto. lia. }
  rewrite <- E in S2. pose proof (steps_app St R _ _ _ _ _ S1 S2) as Hx.
  cbn [Nat.add] in Hx. apply (IH (i + (n - j))) in Hx; [auto|lia].
Qed.

Lemma fixed_exists : forall r A, cycle_closed St (rp r) (fun s => A s = true) -> fixed r A N.
Proof.
  intros r A H.
  assert (G : forall k x, N <= k -> span r A k x = true -> forall k', N <= k' -> span r A k' x = true).
  { intros k x Hk Hx k' Hk'. apply span_spec in Hx. destruct Hx as (a & Ha & f & H0 & Hn & Hr).
    destruct (long_run_cycle (rp r) f) as (i & Hi & Hc).
    { intros i Hi. apply Hr. lia. }
    assert (Hai : A (f i) = true).
    { apply (H a); auto. exists (i - 0). rewrite <- H0. apply run_run_steps with (n := k); auto. lia. }
    assert (Hm : exists m, m <= N /\ steps St (rp r) m (f i) x).
    { pose proof (run_run_steps St (rp r) f k Hr i k ltac:(lia)) as Hs. rewrite Hn in Hs.
      destruct (k - i) as [|n].
      - exists 0. split; [lia|auto].
      - apply shorten in Hs. destruct Hs as (m & Hm & Hs). exists m. split; [lia|auto]. }
    destruct Hm as (m & Hm & Hs).
    destruct (cycle_back St (rp r) (f i) Hc (k' - m)) as (v & Hv1 & Hv2 & Hv3).
    apply span_spec. exists v. split; [eapply H; eauto|].
    replace k' with ((k' - m) + m) by lia. eapply steps_app; eauto. }
  intros s. apply eq_true_iff_eq. split; intros Hs; eapply G; eauto; lia.
Qed.

Notation assumed_pred := (start_states St).

(** * The cycle check without layer counting. *)
Theorem cycle_ck_exact : forall fuel r inv assumed, N < fuel ->
  cycle_closed St (rp r) (fun s => assumed_pred assumed s = true) ->
  exists scc, cycle_ck St eq_dec univ fuel r None inv assumed
    = Some (mkCycle St (sat scc) (Some scc) None) /\
  (forall s, scc s = true <-> between_cycles (rp r) (fun s => assumed_pred assumed s = true) s) /\
  (sat scc = true <-> exists s, assumed_pred assumed s = true /\ on_cycle St (rp r) s).
Proof.
  intros fuel r inv assumed Hf Hc. unfold cycle_ck.
  set (A := assumed_pred assumed) in *.
  pose proof (fixed_exists r A Hc) as Hfix.
  destruct (fwd_null r A inv None fuel 0 1) as (k' & _ & Hfix' & Hfw).
  { exists N. split; auto. lia. }
  cbn [span] in Hfw. fold A.
  rewrite Hfw.
  destruct (bwd_spec r fuel (span r A k')) as (T & -> & H1 & H2 & H3).
  { pose proof (cnt_N (span r A k')). lia. }
  exists T. split; auto.
  assert (Hch : forall s, T s = true <-> between_cycles (rp r) (fun s => A s = true) s).
  { apply (scc_char r A k' T); auto. }
  split; auto. rewrite sat_spec. split.
  - intros (s & Hs). apply Hch in Hs. destruct Hs as (c1 & c2 & Ha & Hcy & _). eauto.
  - intros (s & Ha & Hcy). exists s. apply Hch. exists s, s.
    repeat split; auto; apply reaches_refl.
Qed.

(** * With layer counting. *)
Theorem cycle_ck_layers : forall fuel r inv lim assumed, N < fuel ->
  cycle_closed St (rp r) (fun s => assumed_pred assumed s = true) ->
  let A := assumed_pred assumed in
  (exists n, cycle_ck St eq_dec univ fuel r (Some lim) inv assumed
      = Some (mkCycle St false None (Some (lim + 1))) /\ n = lim + 1 /\
    0 < lim /\ forall i, i < lim -> ~ stop r A inv i) \/
  (exists scc m, cycle_ck St eq_dec univ fuel r (Some lim) inv assumed
      = Some (mkCycle St (sat scc) (Some scc) (Some (m + 1))) /\
    (forall s, scc s = true <-> between_cycles (rp r) (fun s => A s = true) s) /\
    (lim = 0 \/ m + 1 <= lim) /\ stop r A inv m /\ forall i, i < m -> ~ stop r A inv i).
Proof.
  intros fuel r inv lim assumed Hf Hc A. unfold cycle_ck.
  fold A. change (fun s => assumed_pred assumed s = true) with (fun s => A s = true) in Hc.
  pose proof (fixed_exists r A Hc) as Hfix.
  destruct (fwd_limit r A inv lim fuel 0) as (res & Hres & Hspec).
  { exists N. split; auto. lia. }
  { lia. }
  { intros i Hi. lia. }
  cbn [Nat.add span] in Hres. fold A.
  rewrite Hres. destruct res as [n|sp nl].
  - left. destruct Hspec as (H1 & -> & H3). exists (lim + 1). repeat split; auto.
  - right. destruct Hspec as (k' & m & Hfix' & -> & -> & Hm & Hst & Hns & Hl).
    destruct (bwd_spec r fuel (span r A k')) as (T & -> & H1 & H2 & H3).
    { pose proof (cnt_N (span r A k')). lia. }
    exists T, m. split; auto. split; [|auto].
    apply (scc_char r A k' T); auto.
Qed.

(** * Weak convergence *)

(** Distance classes: [far j s]: s has no path of at most j steps inside A to a
    state of A that is in I. *)
Definition near (r : St -> St -> bool) (A I : St -> bool) (j : nat) (s : St) : Prop :=
  ReachSpec.near St (rp r) (fun s => A s = true) (fun s => I s = true) j s.

Fixpoint wspan (r : St -> St -> bool) (A I : St -> bool) (j : nat) : St -> bool :=
  match j with
  | 0 => pminus A I
  | S j' => pminus (wspan r A I j') (pre r (pminus A (wspan r A I j')))
  end.

Lemma near_S : forall r A I j s, near r A I (S j) s <->
  near r A I j s \/ (A s = true /\ exists t, r s t = true /\ near r A I j t).
Proof.
  intros r A I j s. split.
  - intros (n & f & Hn & H0 & (Hr & Ha) & Hi). destruct n as [|n].
    + left. exists 0, f. split; [lia|]. split; auto. split; auto. split; auto.
    + right. split; [rewrite <- H0; apply Ha; lia|]. exists (f 1). split.
      * rewrite <- H0. apply Hr. lia.
      * exists n, (fun i => f (S i)). split; [lia|]. split; auto. split; auto.
        split; [intros i Hi'; apply Hr; lia|intros i Hi'; apply Ha; lia].
  - intros [(n & f & Hn & H)|(Ha & t & Ht & n & f & Hn & H0 & (Hr & Hb) & Hi)].
    + exists n, f. split; auto.
    + exists (S n), (fun i => match i with 0 => s | S i' => f i' end).
      split; [lia|]. split; auto. split; [split|auto].
      * intros [|i] Hi'; [rewrite H0; auto|apply Hr; lia].
      * intros [|i] Hi'; [auto|apply Hb; lia].
Qed.

Lemma wspan_spec : forall r A I j s, wspan r A I j s = true <-> A s = true /\ ~ near r A I j s.
Proof.
  intros r A I j. induction j; intros s; cbn [wspan].
  - rewrite pminus_spec, andb_true_iff, negb_true_iff. split; intros (Ha & Hi); split; auto.
    + intros (n & f & Hn & H0 & _ & Hin). assert (n = 0) by lia. subst. congruence.
    + destruct (I s) eqn:E; auto. exfalso. apply Hi. exists 0, (fun _ => s).
      split; [lia|]. split; auto. split; auto. split; [intros i Hi'; lia|auto].
  - rewrite pminus_spec, andb_true_iff, negb_true_iff, IHj, near_S. split.
    + intros ((Ha & Hn) & Hp). split; auto. intros [H|(_ & t & Ht & H)]; [auto|].
      assert (pre r (pminus A (wspan r A I j)) s = true); [|congruence].
      apply pre_spec. exists t. split; auto. rewrite pminus_spec.
      assert (A t = true) as ->.
      { destruct H as (n & f & _ & H0 & (_ & Hin) & _). rewrite <- H0. apply Hin. lia. }
      simpl. apply negb_true_iff. destruct (wspan r A I j t) eqn:E; auto.
      apply IHj in E. tauto.
    + intros (Ha & Hn). split; [split; auto; tauto|].
      destruct (pre r (pminus A (wspan r A I j)) s) eqn:E; auto. exfalso.
      apply pre_spec in E. destruct E as (t & Ht & E). rewrite pminus_spec in E.
      apply andb_true_iff in E. destruct E as (Eat & E). apply negb_true_iff in E.
      assert (Hdec : ~ ~ near r A I j t).
      { intros Hnn. assert (wspan r A I j t = true) by (apply IHj; auto). congruence. }
      apply Hdec. intros Hnr. apply Hn. right. eauto.
Qed.

Lemma near_dec : forall r A I j s, A s = true -> wspan r A I j s = false -> near r A I j s.
Proof.
  intros r A I j. induction j; intros s Ha Hw; cbn [wspan] in Hw.
  - rewrite pminus_spec, Ha in Hw. simpl in Hw. apply negb_false_iff in Hw.
    exists 0, (fun _ => s). split; [lia|]. split; auto. split; auto. split; [intros i Hi'; lia|auto].
  - rewrite pminus_spec in Hw. apply near_S. destruct (wspan r A I j s) eqn:E.
    + simpl in Hw. apply negb_false_iff in Hw. apply pre_spec in Hw. destruct Hw as (t & Ht & Hw).
      rewrite pminus_spec in Hw. apply andb_true_iff in Hw. destruct Hw as (Hat & Hw).
      apply negb_true_iff in Hw. right. split; auto. eauto.
    + left. auto.
Qed.

Definition wfixed r A I j := forall s, wspan r A I j s = wspan r A I (S j) s.
Lemma wspan_mono : forall r A I j s, wspan r A I (S j) s = true -> wspan r A I j s = true.
Proof. intros r A I j s H. cbn [wspan] in H. rewrite pminus_spec in H. apply andb_true_iff in H. tauto. Qed.
Lemma wfixed_later : forall r A I k, wfixed r A I k -> forall j s, wspan r A I (k + j) s = wspan r A I k s.
Proof.
  intros r A I k H j. induction j; intros s; [f_equal; lia|].
  replace (k + S j) with (S (k + j)) by lia.
  rewrite (H s). cbn [wspan]. rewrite !pminus_spec, IHj. f_equal. f_equal.
  apply eq_true_iff_eq. rewrite !pre_spec.
  split; intros (t & H1 & H2); exists t; rewrite pminus_spec in *; rewrite IHj in *; auto.
Qed.

Lemma wloop_spec : forall r A I ret fuel j,
  cnt (wspan r A I j) < fuel ->
  (match ret with Some lim => lim = 0 \/ j + 1 <= lim | None => True end) ->
  (forall i, i < j -> ~ wfixed r A I i) ->
  exists b out, weak_loop St eq_dec univ fuel r A ret (match ret with Some _ => j + 1 | None => 1 end) (wspan r A I j) = Some (b, out) /\
  ((exists lim, ret = Some lim /\ 0 < lim /\ b = false /\ out = Some (lim + 1) /\
      forall i, i < lim -> ~ wfixed r A I i) \/
   (exists k, wfixed r A I k /\ (forall i, i < k -> ~ wfixed r A I i) /\
      b = negb (sat (wspan r A I k)) /\
      match ret with
      | Some lim => out = Some (k + 1) /\ (lim = 0 \/ k + 1 <= lim)
      | None => out = None
      end)).
Proof.
  intros r A I ret fuel. induction fuel; intros j Hf Hl Hb; [lia|].
  cbn [weak_loop]. change (pminus (wspan r A I j) (pre r (pminus A (wspan r A I j)))) with (wspan r A I (S j)).
  destruct (equiv (wspan r A I j) (wspan r A I (S j))) eqn:E.
  - assert (Hj : wfixed r A I j) by exact (proj1 (equiv_spec _ _) E).
    exists (negb (sat (wspan r A I j))).
    exists (match ret with Some _ => Some (match ret with Some _ => j + 1 | None => 1 end) | None => None end).
    split; auto. right. exists j. split; auto. split; auto. split; auto. destruct ret; auto.
  - assert (Hnf : ~ wfixed r A I j) by (intros H; apply (proj2 (equiv_spec _ _)) in H; congruence).
    assert (Hb' : forall i, i < S j -> ~ wfixed r A I i).
    { intros i Hi. assert (Hc : i < j \/ i = j) by lia. destruct Hc as [Hc| ->]; auto. }
    assert (Hc : cnt (wspan r A I (S j)) < fuel).
    { assert (cnt (wspan r A I (S j)) < cnt (wspan r A I j)); [|lia].
      destruct (sat (pminus (wspan r A I j) (wspan r A I (S j)))) eqn:E'.
      - apply sat_spec in E'. destruct E' as (s & Hs). rewrite pminus_spec in Hs.
        apply andb_true_iff in Hs. destruct Hs as (H1 & H2). apply negb_true_iff in H2.
        apply cnt_lt with (s := s); auto. intros s'. apply wspan_mono.
      - exfalso. apply Hnf. intros s. rewrite sat_false in E'. specialize (E' s).
        rewrite pminus_spec in E'. destruct (wspan r A I j s) eqn:E1; simpl in E'.
        + apply negb_false_iff in E'. auto.
        + destruct (wspan r A I (S j) s) eqn:E2; auto. apply wspan_mono in E2. congruence. }
    destruct ret as [lim|].
    + destruct ((0 <? lim) && (lim <? j + 1 + 1)) eqn:El.
      * apply andb_true_iff in El. destruct El as (El1 & El2). apply Nat.ltb_lt in El1, El2.
        exists false, (Some (j + 1 + 1)). split; auto. left. exists lim.
        split; auto. split; auto. split; auto. split; [f_equal; lia|]. intros i Hi. apply Hb'. lia.
      * apply andb_false_iff in El. rewrite !Nat.ltb_ge in El.
        replace (j + 1 + 1) with (S j + 1) by lia. apply (IHfuel (S j)); auto. lia.
    + apply (IHfuel (S j)); auto.
Qed.

Lemma near_mono : forall r A I i j s, i <= j -> near r A I i s -> near r A I j s.
Proof. intros r A I i j s H (n & f & Hn & Hx). exists n, f. split; [lia|auto]. Qed.

Lemma near_in : forall r A I j s, near r A I j s -> A s = true.
Proof. intros r A I j s (n & f & _ & <- & (_ & H) & _). apply H. lia. Qed.

Lemma wfixed_near : forall r A I k, wfixed r A I k <-> forall s, near r A I (S k) s -> near r A I k s.
Proof.
  intros r A I k. split.
  - intros H s Hs. destruct (wspan r A I k s) eqn:E.
    + rewrite H in E. apply wspan_spec in E. tauto.
    + apply near_dec; auto. eapply near_in; eauto.
  - intros H s. apply eq_true_iff_eq. rewrite !wspan_spec. split; intros (Ha & Hn); split; auto.
    intros Hk. apply Hn. apply near_mono with (i := k); auto.
Qed.

Lemma not_wfixed_near : forall r A I k, ~ wfixed r A I k ->
  exists s, near r A I (S k) s /\ ~ near r A I k s.
Proof.
  intros r A I k H. destruct (sat (pminus (wspan r A I k) (wspan r A I (S k)))) eqn:E.
  - apply sat_spec in E. destruct E as (s & Hs). rewrite pminus_spec in Hs.
    apply andb_true_iff in Hs. destruct Hs as (H1 & H2). apply negb_true_iff in H2.
    apply wspan_spec in H1. destruct H1 as (Ha & H1). exists s. split; auto. apply near_dec; auto.
  - exfalso. apply H. intros s. rewrite sat_false in E. specialize (E s).
    rewrite pminus_spec in E. destruct (wspan r A I k s) eqn:E1; simpl in E.
    + apply negb_false_iff in E. auto.
    + destruct (wspan r A I (S k) s) eqn:E2; auto. apply wspan_mono in E2. congruence.
Qed.

Lemma wfixed_all : forall r A I k, wfixed r A I k -> forall j s, near r A I j s -> near r A I k s.
Proof.
  intros r A I k H j s Hs. destruct (le_lt_dec j k) as [Hle|Hgt]; [eapply near_mono; eauto|].
  destruct (wspan r A I k s) eqn:E.
  - rewrite <- (wfixed_later r A I k H (j - k)) in E. replace (k + (j - k)) with j in E by lia.
    apply wspan_spec in E. tauto.
  - apply near_dec; auto. eapply near_in; eauto.
Qed.

Theorem weak_exact : forall fuel r I A ret, N < fuel ->
  exists b out, weak_convergence_ck St eq_dec univ fuel r I A ret = Some (b, out) /\
  ((exists lim, ret = Some lim /\ 0 < lim /\ b = false /\ out = Some (lim + 1) /\
      forall i, i < lim -> exists s, near r A I (S i) s /\ ~ near r A I i s) \/
   (exists k, (forall j s, near r A I j s -> near r A I k s) /\
      (forall i, i < k -> exists s, near r A I (S i) s /\ ~ near r A I i s) /\
      (b = true <-> forall s, A s = true -> exists j, near r A I j s) /\
      match ret with
      | Some lim => out = Some (k + 1) /\ (lim = 0 \/ k + 1 <= lim)
      | None => out = None
      end)).
Proof.
  intros fuel r I A ret Hf.
  destruct (wloop_spec r A I ret fuel 0) as (b & out & H & Hs).
  - pose proof (cnt_N (wspan r A I 0)). lia.
  - destruct ret; lia.
  - intros i Hi. lia.
  - exists b, out. split.
    + unfold weak_convergence_ck. cbn [Nat.add wspan] in H. destruct ret; exact H.
    + destruct Hs as [(lim & H1 & H2 & H3 & H4 & H5)|(k & H1 & H2 & H3 & H4)].
      * left. exists lim. repeat split; auto. intros i Hi. apply not_wfixed_near. auto.
      * right. exists k. split; [apply wfixed_all; auto|]. split.
        { intros i Hi. apply not_wfixed_near. auto. }
        split; auto. rewrite H3, negb_true_iff, sat_false. split.
        -- intros Hn s Ha. exists k. apply near_dec; auto.
        -- intros Hn s. destruct (wspan r A I k s) eqn:E; auto. apply wspan_spec in E.
           destruct E as (Ha & E). exfalso. destruct (Hn s Ha) as (j & Hj).
           apply E. eapply wfixed_all; eauto.
Qed.

Lemma stop_settled : forall r A inv k, stop r A inv k <->
  settled St (rp r) (fun s => A s = true)
    (match inv with Some i => Some (fun s => i s = true) | None => None end) k.
Proof.
  intros r A inv k. unfold stop, settled, fixed, endpoints. split; intros [H|H].
  - left. intros t. rewrite <- !span_spec. rewrite H. tauto.
  - right. destruct inv; auto. intros t Ht. apply H. apply span_spec. auto.
  - left. intros s. apply eq_true_iff_eq. rewrite !span_spec. apply H.
  - right. destruct inv; auto. intros t Ht. apply H. apply span_spec. auto.
Qed.

(** * Transitive closure *)
Lemma rtab_spec : forall r s t, rtab St eq_dec univ r s t = r s t.
Proof.
  intros r s t. unfold rtab. apply eq_true_iff_eq. rewrite existsb_exists. split.
  - intros (row & Hrow & H). apply in_map_iff in Hrow. destruct Hrow as (s' & <- & _). cbn [fst snd] in H.
    destruct (eq_dec s' s) as [->|]; [|discriminate].
    destruct (in_dec eq_dec t (filter (r s) univ)) as [Hi|]; [|discriminate].
    apply filter_In in Hi. tauto.
  - intros H. exists (s, filter (r s) univ). split.
    + apply in_map_iff. exists s. auto.
    + cbn [fst snd]. destruct (eq_dec s s); [|congruence].
      destruct (in_dec eq_dec t (filter (r s) univ)) as [|Hn]; auto.
      exfalso. apply Hn. apply filter_In. auto.
Qed.
Lemma dotjoin_spec : forall a b s t, dotjoin St univ a b s t = true <-> exists u, a s u = true /\ b u t = true.
Proof.
  intros. unfold dotjoin. rewrite existsb_exists. split.
  - intros (u & _ & H). apply andb_true_iff in H. eauto.
  - intros (u & H1 & H2). exists u. rewrite H1, H2. auto.
Qed.
Lemma requiv_spec : forall a b, requiv St univ a b = true <-> forall s t, a s t = b s t.
Proof.
  intros. unfold requiv. rewrite forallb_forall. split.
  - intros H s t. apply equiv_spec. auto.
  - intros H s _. apply equiv_spec. auto.
Qed.

Definition plus (R : St -> St -> Prop) (s t : St) : Prop := exists n, steps St R (S n) s t.

(** [bounded n]: paths of 1 .. n steps. *)
Definition bounded (R : St -> St -> Prop) (n : nat) (s t : St) : Prop :=
  exists m, 1 <= m <= n /\ steps St R m s t.

Lemma tc_spec : forall r fuel n reach next, 1 <= n ->
  (forall s t, next s t = true <-> bounded (rp r) n s t) ->
  ((forall s t, reach s t = false) /\ n = 1 \/
   exists m, 2 * m = n /\ 1 <= m /\ forall s t, reach s t = true <-> bounded (rp r) m s t) ->
  N <= 2 ^ (fuel - 2) * n -> 2 <= fuel ->
  exists v, tc_loop St eq_dec univ fuel reach next = Some v /\
    forall s t, v s t = true <-> plus (rp r) s t.
Proof.
  intros r fuel. induction fuel as [|fuel IH]; intros n reach next Hn Hnext Hreach HN Hf; [lia|].
  cbn [tc_loop]. destruct (requiv St univ reach next) eqn:E.
  - rewrite requiv_spec in E. exists reach. split; auto.
    assert (G : forall k s t, steps St (rp r) (S k) s t -> reach s t = true).
    { destruct Hreach as [(H1 & ->)|(m & Hm & Hm1 & H1)].
      - intros k s t H. apply steps_S in H. destruct H as (u & Hu & _).
        assert (next s u = true).
        { apply Hnext. exists 1. split; [lia|]. apply steps_one. auto. }
        rewrite <- E, H1 in H. discriminate.
      - induction k as [k IHk] using lt_wf_ind. intros s t H.
        destruct (le_lt_dec (S k) n) as [Hle|Hgt].
        + rewrite E. apply Hnext. exists (S k). split; [lia|auto].
        + replace (S k) with (n + (S k - n)) in H by lia. apply steps_split in H.
          destruct H as (u & Hu1 & Hu2).
          assert (Hm2 : reach s u = true). { rewrite E. apply Hnext. exists n. split; [lia|auto]. }
          apply H1 in Hm2. destruct Hm2 as (m' & Hm' & Hs').
          pose proof (steps_app St (rp r) _ _ _ _ _ Hs' Hu2) as Hx.
          replace (m' + (S k - n)) with (S (m' + (k - n))) in Hx by lia.
          apply IHk in Hx; auto. lia. }
    intros s t. split.
    + intros H. rewrite E in H. apply Hnext in H. destruct H as (m & Hm & H).
      exists (m - 1). replace (S (m - 1)) with m by lia. auto.
    + intros (k & H). eapply G; eauto.
  - destruct fuel as [|fuel]; [lia|].
    assert (Hnext2 : forall s t,
      rtab St eq_dec univ (fun s t => next s t || dotjoin St univ next next s t) s t = true
      <-> bounded (rp r) (2 * n) s t).
    { intros s t. rewrite rtab_spec, orb_true_iff, dotjoin_spec. split.
      - intros [H|(u & H1 & H2)].
        + apply Hnext in H. destruct H as (m & Hm & H). exists m. split; [lia|auto].
        + apply Hnext in H1, H2. destruct H1 as (a & Ha & H1), H2 as (b & Hb & H2).
          exists (a + b). split; [lia|]. eapply steps_app; eauto.
      - intros (m & Hm & H). destruct (le_lt_dec m n) as [Hle|Hgt].
        + left. apply Hnext. exists m. split; [lia|auto].
        + right. replace m with (n + (m - n)) in H by lia. apply steps_split in H.
          destruct H as (u & H1 & H2). exists u. split; apply Hnext.
          * exists n. split; [lia|auto].
          * exists (m - n). split; [lia|auto]. }
    destruct fuel as [|fuel].
    + (* fuel exhausted can only happen when N <= n *)
      cbn [tc_loop]. cbn in HN. 
      assert (requiv St univ next
        (rtab St eq_dec univ (fun s t => next s t || dotjoin St univ next next s t)) = true) as ->.
      { apply requiv_spec. intros s t. apply eq_true_iff_eq. rewrite Hnext2, Hnext. split.
        - intros (m & Hm & H). exists m. split; [lia|auto].
        - intros (m & Hm & H). destruct m as [|m]; [lia|]. apply shorten in H.
          destruct H as (m' & Hm' & H). exists m'. split; [lia|auto]. }
      exists next. split; auto. intros s t. rewrite Hnext. split.
      * intros (m & Hm & H). exists (m - 1). replace (S (m - 1)) with m by lia. auto.
      * intros (k & H). apply shorten in H. destruct H as (m & Hm & H). exists m. split; [lia|auto].
    + apply (IH (2 * n)); auto; try lia.
      * right. exists n. split; auto. 
      * replace (S (S (S fuel)) - 2) with (S fuel) in HN by lia.
        replace (S (S fuel) - 2) with fuel by lia. cbn [Nat.pow] in HN. nia.
Qed.

Theorem transitive_closure_exact : forall fuel r, N + 2 <= fuel ->
  exists v, transitive_closure St eq_dec univ fuel r = Some v /\
    forall s t, v s t = true <-> plus (rp r) s t.
Proof.
  intros fuel r Hf. unfold transitive_closure. apply (tc_spec r fuel 1); auto.
  - intros s t. split.
    + intros H. exists 1. split; [lia|]. apply steps_one. auto.
    + intros (m & Hm & H). assert (m = 1) by lia. subst. apply steps_S in H.
      destruct H as (u & Hu & H). apply steps_0 in H. subst. auto.
  - rewrite Nat.mul_1_r. assert (Hp : forall k, k < 2 ^ k).
    { induction k; cbn; lia. } pose proof (Hp (fuel - 2)). lia.
  - lia.
Qed.

End Proofs.
