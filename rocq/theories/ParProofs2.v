(** The parallel search: no thread ever excludes a solution that contains no
    reported one. *)
From Coq Require Import List Arith Bool Lia.
From Verif Require Import FinLib ReachModel ReachSpec StabModel RankModel ConflictModel ConflictSpec ConflictProofs
  SearchModel SearchSpec SearchProofs SearchProofs2 SearchProofs3 SearchProofs4 SearchProofs6 SearchProofs8 SearchProofs9 ParModel ParSpec ParProofs.
Import ListNotations.

Lemma safe_merge : forall place clash insts given c f g, safe place clash insts given c f -> safe place clash insts given c g ->
  safe place clash insts given c (add_family place f g).
Proof.
  intros place clash insts given c f g (F1 & F2) (G1 & G2). split; [apply built_merge; auto|]. intros A HA X0.
  assert (Y : conflict_ck (add_family place f g) A = true) by (apply conflict_loop_spec; exact X0).
  apply merge_exact in Y. destruct Y as [Y|Y]; apply conflict_loop_spec in Y; [apply (F2 A HA Y)|apply (G2 A HA Y)].
Qed.
Lemma safe_trim : forall place clash insts given c f n, safe place clash insts given c f -> safe place clash insts given c (trim f n).
Proof.
  intros place clash insts given c f n (F1 & F2). split; [apply built_trim; auto|]. intros A HA (b & Hb & Hi). apply (F2 A HA).
  apply trim_sets in Hb. exists b. tauto.
Qed.

Section Kept.
Variable place : fset -> list fset -> nat.
Variable clash : nat -> nat -> bool.
Variables mc rounds : nat.
Variable o : par_opts.
Variable insts : list inst.
Variable given : list nat.
(** The sets that solutions have to avoid: those of the conflict family at the
    start and [X], the solutions that get reported. *)
Variables conflicts0 X : list (list nat).
Variable allowed : nat -> Prop.
Hypothesis Htwo : length insts <= 2.
Hypothesis Hne : insts <> [].
Hypothesis Hse : forall I, In I insts -> searchable I given allowed.

Notation C := (conflicts0 ++ X).
Notation sol := (solution insts given C clash).
Notation safe := (safe place clash insts given C).
Notation good := (level_good insts allowed given).
Notation keeps := (keeps clash insts given C).
Variable B : list nat.
Hypothesis HB : sol B.

Let Hproper : forall I, In I insts -> proper I := fun I HI => se_proper _ _ _ (Hse I HI).
Let Hplain : forall I, In I insts -> plain I := fun I HI => se_plain _ _ _ (Hse I HI).
Let Hbehav : forall I, In I insts -> behav _ (sysm I) <> FutureActiveShadow := fun I HI => se_behav _ _ _ (Hse I HI).
Let Hstyle : forall I, In I insts -> style _ (sysm I) <> FutureAndActiveShadow := fun I HI => se_style _ _ _ (Hse I HI).
Let Hdrag : forall I, In I insts -> forall a, drags_shadow I a = false := fun I HI => se_drag _ _ _ (Hse I HI).
Let Hsh : forall I, In I insts -> forall x y, legit I x -> specified I x y -> moves I given x y :=
  fun I HI => se_given _ _ _ (Hse I HI).
Let Hharm : forall I, In I insts -> forall a, allowed a -> In a given \/ harmless I a :=
  fun I HI => se_harmless _ _ _ (Hse I HI).

Lemma safe_sat : forall f, safe f -> sat_ck f = true.
Proof.
  intros f (F1 & F2). destruct (sat_ck f) eqn:E; auto. exfalso.
  apply sat_spec in E; [|apply (built_inv place f F1)]. apply conflict_loop_spec in E.
  apply (F2 B HB). apply (rejected_mono _ []); auto. intros x [].
Qed.
Lemma safe_report : forall f acts, safe f -> In acts X -> safe (add_conflict place f (fs_of acts)).
Proof.
  intros f acts Hf Hi. apply (add_safe place clash insts given C); auto.
  intros S HS Hn. apply (so_conflicts _ _ _ _ _ HS). exists acts. split; auto. apply in_or_app. auto.
Qed.

Record level_kept (base : list part) : Prop := mkLevelKept {
  lk_good : good base;
  lk_keeps : keeps base [];
  lk_checked : forall p, In p base -> checked' p;
  lk_light : map p_no_partial base = map light insts
}.

Lemma drop_kept : forall f base f' r imp, safe f -> level_kept base -> (forall x, In x imp -> In x (impossible f)) ->
  revise place clash rounds f base [] (fold_right sadd [] imp) = (f', r) ->
  safe f' /\ r <> Bad /\ forall b, r = Good b -> level_kept b.
Proof.
  intros f base f' r imp Hf [L1 L2 L3 L4] Hi E.
  destruct (revise_safe place clash rounds insts given C allowed Htwo Hproper Hplain Hharm B HB f base [] (fold_right sadd [] imp) f' r Hf L1) as (S1 & S2); auto.
  { intros x []. }
  destruct (revise_keeps place clash rounds insts given C allowed Htwo Hne Hproper Hplain Hbehav Hstyle Hdrag Hsh Hharm B HB
    f base [] [] (fold_right sadd [] imp) f' r Hf L1 L2) as (K1 & K2); auto.
  { intros x []. }
  { intros S HS _ _ x Hx HxS. rewrite fold_sadd_in in Hx. destruct Hf as (F1 & F2). apply (F2 S HS).
    destruct (built_inv place f F1) as (_ & _ & F3 & _). apply (rejected_mono _ [x]); [apply conflict_loop_spec; apply F3; auto|].
    intros y [<-|[]]. auto. }
  split; auto. split.
  - intros ->. apply (K1 eq_refl B HB). intros x [].
  - intros b ->. destruct (S2 b eq_refl) as (S3 & S4). split.
    + apply (revise_good place clash rounds insts Hproper allowed given) in E; auto. intros x [].
    + apply (K2 b eq_refl).
    + exact S4.
    + rewrite S3. exact L4.
Qed.

Lemma trial_kept : forall f base pick fuel f' r, safe f -> level_kept base -> picks_candidates pick -> picks_if_any pick ->
  add_stabilization place clash 0 0 mc rounds base pick fuel f = (f', r) -> safe f' /\ r <> NotFound.
Proof.
  intros f base pick fuel f' r Hf [L1 L2 L3 L4] P1 P2 E.
  apply (add_stabilization_sem place clash mc rounds insts given C allowed) with
    (B := B) (base := base) (pick := pick) (fuel := fuel) (f := f) (f' := f') (o := r); auto.
  intros I HI. apply (se_obedient _ _ _ (Hse I HI)).
Qed.

(** ** The invariant *)
Variable quiet : bool.   (* no signal *)

Definition reports_in (g : shared) : Prop :=
  solution_as_conflict o = true -> forall r, In r (g_reported g) -> In (r_acts r) X.

Record p_kept (g : shared) : Prop := mkPKept {
  pk_safe : reports_in g -> safe (g_conf g);
  pk_done : reports_in g -> quiet = true -> g_done g = true -> g_reported g <> [] /\ try_all o = false
}.
Record q_kept' (g : shared) (t : thread) : Prop := mkQKept {
  qk_safe : safe (t_fam t);
  qk_level : level_kept (t_base t);
  qk_none : quiet = true -> t_phase t = Tried None -> g_done g = true;
  qk_gone : t_phase t = Gone -> g_done g = true \/ (ntrials o <> 0 /\ ntrials o <= t_trial t);
  qk_first : quiet = true -> solution_as_conflict o = false -> g_reported g = [] ->
    t_trial t = 0 /\ (t_phase t = Head \/ t_phase t = Trying \/ (exists a, t_phase t = Tried (Some a)) \/ t_phase t = Failed)
}.
Definition q_kept (g : shared) (i : nat) (t : thread) : Prop := reports_in g -> q_kept' g t.

Lemma q_grow : forall g g' t, q_kept' g t -> (g_done g = true -> g_done g' = true) ->
  (g_reported g' = [] -> g_reported g = []) -> q_kept' g' t.
Proof.
  intros g g' t [A1 A2 A3 A4 A5] Hd Hr. split; auto.
  intros E. destruct (A4 E); auto.
Qed.

Lemma count_kept : forall g i t found, p_kept g -> q_kept g i t -> t_phase t = Tried found ->
  let g' := count_solution place o g i (t_trial t) found in
  p_kept g' /\ (forall j u, j <> i -> q_kept g j u -> q_kept g' j u) /\ q_kept g' i (set_phase t Inside).
Proof.
  intros g i t found HP HQ Eph g'.
  assert (Hold : reports_in g' -> reports_in g /\ (g_done g = true -> g_done g' = true) /\ (g_reported g' = [] -> g_reported g = [])).
  { unfold g', count_solution. destruct (g_done g) eqn:Ed; [tauto|]. destruct found as [acts|]; [|split; [auto|split; [congruence|auto]]].
    destruct (solution_as_conflict o && conflict_ck (g_conf g) (fs_of acts)); [split; [auto|split; [congruence|auto]]|]. intros H. split; [|split; [congruence|]].
    - intros E r Hr. apply (H E). cbn [g_reported]. apply in_or_app. auto.
    - cbn [g_reported]. intros E. destruct (g_reported g); [auto|discriminate]. }
  split; [|split].
  - destruct HP as [P1 P2]. unfold g', count_solution in *. destruct (g_done g) eqn:Ed; [split; auto; rewrite Ed; auto|].
    destruct found as [acts|]; [|split; auto; congruence].
    destruct (solution_as_conflict o && conflict_ck (g_conf g) (fs_of acts)) eqn:Ek; [split; auto; congruence|].
    split; cbn [g_conf g_done g_reported].
    + intros H. destruct (Hold H) as (H1 & _). destruct (solution_as_conflict o) eqn:Es; cbn [andb negb]; auto.
      apply safe_report; auto.
      apply (H Es (mkReport i (t_trial t) acts)). cbn [g_reported]. apply in_or_app. right. left. auto.
    + intros _ _ E. split; [destruct (g_reported g); discriminate|]. destruct (try_all o); [discriminate|auto].
  - intros j u _ Hu H. destruct (Hold H) as (H1 & H2 & H3). apply (q_grow g); auto.
  - intros H. destruct (Hold H) as (H1 & H2 & H3). destruct (HQ H1) as [A1 A2 A3 A4 A5].
    split; cbn [set_phase t_fam t_base t_phase t_trial]; auto; try discriminate.
    intros Hq Es Er. exfalso. unfold g', count_solution in Er. destruct (g_done g) eqn:Ed.
    { apply (pk_done g HP H1 Hq Ed). auto. }
    rewrite Es in Er. cbn [andb] in Er. destruct found as [acts|].
    + cbn [g_reported] in Er. apply app_eq_nil in Er. destruct Er as (_ & Er). discriminate Er.
    + specialize (A3 Hq Eph). congruence.
Qed.

Lemma run_kept : forall evs g, schedule evs -> eager evs -> (In Kill evs -> quiet = false) ->
  holds p_kept q_kept g -> holds p_kept q_kept (run place clash 0 0 mc rounds o g evs).
Proof.
  intros evs g Hs He Hk. apply (run_holds place clash 0 0 mc rounds o p_kept q_kept) with
    (good_pick := fun pick => picks_candidates pick /\ picks_if_any pick) (kills := quiet = false); auto.
  - intros h l ts [H1 H2]. split; auto.
  - intros h l ts i t H H0. destruct (H H0) as [A1 A2 A3 A4 A5]. split; auto.
  - intros Hq h [H1 H2]. split; auto. congruence.
  - intros Hq h i t _ H H0. apply (q_grow h); auto.
  - intros h i t HP HQ Eph. split; intros E H; destruct (HQ H) as [A1 A2 A3 A4 A5];
      split; cbn [set_phase t_fam t_base t_phase t_trial]; auto; try discriminate.
    + intros _. apply orb_true_iff in E. destruct E as [E|E]; auto. right. apply andb_true_iff in E. destruct E as (E1 & E2).
      apply negb_true_iff, Nat.eqb_neq in E1. apply Nat.leb_le in E2. auto.
    + intros Hq Es Er. exfalso. destruct (A5 Hq Es Er) as (Y & _). rewrite Y in E. apply orb_true_iff in E. destruct E as [E|E].
      * apply (pk_done h HP H Hq E). auto.
      * apply andb_true_iff in E. destruct E as (E1 & E2). apply negb_true_iff, Nat.eqb_neq in E1. apply Nat.leb_le in E2. lia.
    + intros Hq Es Er. destruct (A5 Hq Es Er) as (Y & _). auto.
  - intros h i t fuel pick f r (Hp1 & Hp2) HP HQ Eph E H. destruct (HQ H) as [A1 A2 A3 A4 A5].
    destruct (trial_kept _ _ _ _ _ _ A1 A2 Hp1 Hp2 E) as (B1 & B2).
    split; cbn [t_fam t_base t_phase t_trial]; auto.
    + intros Hq Ex. destruct r as [a| |]; try discriminate; [congruence|]. destruct (g_done h); [auto|discriminate].
    + intros Ex. destruct r; try discriminate. destruct (g_done h); discriminate.
    + intros Hq Es Er. destruct (A5 Hq Es Er) as (Y & _). split; auto. destruct r as [a| |].
      * eauto.
      * congruence.
      * destruct (g_done h) eqn:Ed; auto. exfalso. apply (pk_done h HP H Hq Ed). auto.
  - apply count_kept.
  - intros h i t h' t' HP HQ Eph E. unfold merge_conflicts in E.
    assert (Hq5 : reports_in h -> quiet = true -> solution_as_conflict o = false -> g_reported h = [] -> False).
    { intros H Hq Es Er. destruct (qk_first _ _ (HQ H) Hq Es Er) as (_ & [Y|[Y|[(a & Y)|Y]]]); congruence. }
    destruct (negb (g_done h) || conflicts_file o); injection E as <- <-.
    + assert (Hsf : reports_in h -> safe (trim (add_family place (t_fam t) (g_conf h)) mc)).
      { intros H. apply safe_trim, safe_merge; [apply (qk_safe _ _ (HQ H))|apply (pk_safe _ HP H)]. }
      split; [|split].
      * split; cbn [g_conf g_done g_reported]; [intros H; apply Hsf; exact H|].
        intros H Hq Ed. apply (pk_done h HP H Hq). apply orb_true_iff in Ed. destruct Ed as [Ed|Ed]; auto.
        rewrite (safe_sat _ (Hsf H)) in Ed. discriminate.
      * intros j u _ Hu H. apply (q_grow h); auto. intros Ed. cbn [g_done]. rewrite Ed. auto.
      * intros H. destruct (HQ H) as [A1 A2 A3 A4 A5]. split; cbn [set_phase t_fam t_base t_phase t_trial]; auto; try discriminate.
        intros Hq Es Er. destruct (Hq5 H Hq Es Er).
    + split; auto. split; auto. intros H. destruct (HQ H) as [A1 A2 A3 A4 A5].
      split; cbn [set_phase t_fam t_base t_phase t_trial]; auto; try discriminate.
      intros Hq Es Er. destruct (Hq5 H Hq Es Er).
  - intros h i t h' t' HP HQ Eph E. unfold drop_impossible in E.
    assert (Hq5 : reports_in h -> quiet = true -> solution_as_conflict o = false -> g_reported h = [] -> False).
    { intros H Hq Es Er. destruct (qk_first _ _ (HQ H) Hq Es Er) as (_ & [Y|[Y|[(a & Y)|Y]]]); congruence. }
    assert (Hsame : q_kept h i (mkThread (t_fam t) (t_base t) (S (t_trial t)) Head)).
    { intros H. destruct (HQ H) as [A1 A2 A3 A4 A5]. split; cbn [t_fam t_base t_phase t_trial]; auto; try discriminate.
      intros Hq Es Er. destruct (Hq5 H Hq Es Er). }
    destruct (g_done h) eqn:Ed; [injection E as <- <-; auto|].
    set (imp := filter _ (impossible (t_fam t))) in E.
    destruct (is_empty imp); [injection E as <- <-; auto|].
    destruct (revise _ _ _ _ _ _ _) as (f & r) eqn:Er.
    assert (Hd : reports_in h -> safe f /\ r <> Bad /\ forall b, r = Good b -> level_kept b).
    { intros H. destruct (HQ H) as [A1 A2 A3 A4 A5]. apply (drop_kept (t_fam t) (t_base t) f r imp); auto.
      intros x Hx. apply filter_In in Hx. tauto. }
    destruct r as [b| |]; injection E as <- <-.
    + split; auto. split; auto. intros H. destruct (Hd H) as (D1 & D2 & D3). destruct (HQ H) as [A1 A2 A3 A4 A5].
      split; cbn [t_fam t_base t_phase t_trial]; auto; try discriminate. intros Hq Es Ex. destruct (Hq5 H Hq Es Ex).
    + split; [|split].
      * destruct HP as [P1 P2]. split; cbn [set_done g_conf g_done g_reported]; auto. intros H. exfalso. apply (Hd H). auto.
      * intros j u _ Hu H. apply (q_grow h); auto.
      * intros H. exfalso. apply (Hd H). auto.
    + split; auto. split; auto. intros H. destruct (HQ H) as [A1 A2 A3 A4 A5].
      split; cbn [set_phase t_fam t_base t_phase t_trial]; auto; try discriminate. intros Hq Es Ex. destruct (Hq5 H Hq Es Ex).
  - intros i fuel pick Hi. split; [apply (Hs i fuel pick Hi)|apply (He i fuel pick Hi)].
Qed.
End Kept.
