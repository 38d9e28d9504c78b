(** The parallel search: how it starts, what its reports look like, and the
    minimisation of conflicts. *)
From Coq Require Import List Arith Bool Lia Permutation.
From Verif Require Import FinLib ReachModel ReachSpec StabModel RankModel ConflictModel ConflictSpec ConflictProofs
  SearchModel SearchSpec SearchProofs SearchProofs2 SearchProofs3 SearchProofs4 SearchProofs6 SearchProofs8 SearchProofs9
  SearchProps SearchProps2 ParModel ParSpec ParProofs ParProofs2.
Import ListNotations.

Lemma solution_less : forall insts given c x clash A, solution insts given (c ++ x) clash A -> solution insts given c clash A.
Proof.
  intros insts given c x clash A [H1 H2 H3 H4 H5]. split; auto. intros (b & Hb & Hi). apply H3. exists b. split; auto.
  apply in_or_app. auto.
Qed.
Lemma solution_smaller : forall insts given c x clash A A', solution insts given (c ++ x) clash A ->
  solution insts given c clash A' -> incl A' A -> solution insts given (c ++ x) clash A'.
Proof.
  intros insts given c x clash A A' HA [H1 H2 H3 H4 H5] Hi. split; auto. intros X.
  apply (so_conflicts _ _ _ _ _ HA). apply (rejected_mono _ A'); auto.
Qed.
Lemma solution_more : forall insts given c x clash A, solution insts given c clash A ->
  ~ rejected x A -> solution insts given (c ++ x) clash A.
Proof.
  intros insts given c x clash A [H1 H2 H3 H4 H5] Hx. split; auto. intros (b & Hb & Hi).
  apply in_app_or in Hb. destruct Hb as [Hb|Hb]; [apply H3|apply Hx]; exists b; auto.
Qed.
Lemma safe_less : forall place clash insts given c x f, safe place clash insts given c f -> safe place clash insts given (c ++ x) f.
Proof. intros place clash insts given c x f (F1 & F2). split; auto. intros A HA. apply F2. apply (solution_less _ _ _ x); auto. Qed.

Section Begin.
Variable place : fset -> list fset -> nat.
Variable clash : nat -> nat -> bool.
Variables mc rounds n : nat.
Variable o : par_opts.
Variable insts : list inst.
Variable given : list nat.
Variable f0 : family.
Hypothesis Hf : built place f0.
Hypothesis Hne : insts <> [].
Hypothesis Htwo : length insts <= 2.
Hypothesis Hse : forall I, In I insts -> searchable I given (usable insts given f0).
Variable X : list (list nat).
Variable B : list nat.
Hypothesis HB : solution insts given (sets f0 ++ X) clash B.

Lemma begin_kept : forall g quiet, begin_search place clash rounds n f0 insts given = Some g ->
  holds (p_kept place clash o insts given (sets f0) X quiet)
        (q_kept place clash o insts given (sets f0) X (usable insts given f0) quiet) g.
Proof.
  intros g quiet E. unfold begin_search in E. destruct (start place clash rounds f0 insts given) as (f1 & r) eqn:Es.
  destruct (start_pass place clash rounds insts given f0 B f1 r Hf Hne Htwo Hse (solution_less _ _ _ _ _ _ HB) Es) as (H1 & H2).
  destruct r as [base| |]; [|congruence|discriminate]. injection E as <-.
  destruct (H2 base eq_refl) as (K1 & K2 & K3 & K4 & K5). split.
  - split; cbn [g_conf g_done g_reported]; [|discriminate]. intros _. apply safe_less. split; auto.
    intros A HA. apply (so_conflicts _ _ _ _ _ HA).
  - intros i t Ht _. apply nth_error_In in Ht. cbn [g_threads] in Ht. apply repeat_spec in Ht. subst t.
    split; cbn [t_fam t_base t_phase t_trial]; try discriminate.
    + apply safe_less. auto.
    + split; auto. intros S HS Hi. destruct (K3 S (solution_less _ _ _ _ _ _ HS) Hi) as (S' & A1 & A2 & A3).
      exists S'. split; [|auto]. apply (solution_smaller _ _ _ _ _ S); auto.
    + auto.
Qed.

Lemma search_kept : forall g evs quiet, begin_search place clash rounds n f0 insts given = Some g ->
  schedule evs -> eager evs -> (In Kill evs -> quiet = false) ->
  holds (p_kept place clash o insts given (sets f0) X quiet)
        (q_kept place clash o insts given (sets f0) X (usable insts given f0) quiet) (run place clash 0 0 mc rounds o g evs).
Proof.
  intros g evs quiet E Hs He Hk. apply (run_kept place clash mc rounds o insts given (sets f0) X (usable insts given f0) Htwo Hne Hse B HB); auto.
  apply begin_kept; auto.
Qed.
End Begin.

Lemma move_length : forall place clash md mh mc rounds o g i fuel pick,
  length (g_threads (move place clash md mh mc rounds o g i fuel pick)) = length (g_threads g).
Proof.
  intros. unfold move. destruct (nth_error (g_threads g) i) as [t|]; auto.
  destruct (t_phase t); auto.
  - destruct (_ || _); cbn; apply upd_length.
  - destruct (add_stabilization _ _ _ _ _ _ _ _ _ _) as (f & [a| |]); cbn; apply upd_length.
  - destruct (g_lock g); auto. cbn [put set_lock g_threads]. rewrite upd_length, count_threads. auto.
  - pose proof (merge_threads place mc o g t) as H. destruct (merge_conflicts _ _ _ _ _) as (g' & t'). cbn [put set_lock g_threads].
    rewrite upd_length. cbn [fst] in H. rewrite H. auto.
  - pose proof (drop_threads place clash rounds g t) as H. destruct (drop_impossible _ _ _ _ _) as (g' & t'). cbn [put g_threads].
    rewrite upd_length. cbn [fst] in H. rewrite H. auto.
Qed.
Lemma run_length : forall place clash md mh mc rounds o evs g,
  length (g_threads (run place clash md mh mc rounds o g evs)) = length (g_threads g).
Proof.
  intros place clash md mh mc rounds o. induction evs as [|[|i fuel pick] evs IH]; intros g; auto; cbn [run fold_left];
    unfold run in IH; rewrite IH; cbn [happen]; auto. apply move_length.
Qed.
Lemma begin_threads : forall place clash rounds n f insts given g,
  begin_search place clash rounds n f insts given = Some g -> length (g_threads g) = n.
Proof.
  intros place clash rounds n f insts given g E. unfold begin_search in E.
  destruct (start _ _ _ _ _ _) as (f1 & [b| |]); try discriminate; injection E as <-; cbn; apply repeat_length.
Qed.

(** ** The reports *)
Section Reports.
Variable place : fset -> list fset -> nat.
Variable clash : nat -> nat -> bool.
Variables md mh mc rounds : nat.
Variable o : par_opts.

Definition tag (r : report) : nat * nat := (r_pc r, r_trial r).
Definition p_tags (g : shared) : Prop := NoDup (map tag (g_reported g)).
Definition q_tags (g : shared) (i : nat) (t : thread) : Prop :=
  forall r, In r (g_reported g) -> r_pc r = i ->
    r_trial r < t_trial t \/ r_trial r = t_trial t /\ match t_phase t with Inside | Merged | Failed => True | _ => False end.

Lemma count_reported : forall g i k found, let g' := count_solution place o g i k found in
  g_reported g' = g_reported g \/ exists a, g_reported g' = g_reported g ++ [mkReport i k a].
Proof.
  intros g i k found g'. unfold g', count_solution. destruct (g_done g); auto. destruct found as [a|]; auto.
  destruct (solution_as_conflict o && _); auto. cbn [g_reported]. eauto.
Qed.

Lemma q_tags_next : forall g g' i t t', q_tags g i t -> g_reported g' = g_reported g ->
  t_trial t < t_trial t' \/ t_trial t' = t_trial t /\
    match t_phase t' with Inside | Merged | Failed => True
    | _ => match t_phase t with Inside | Merged | Failed => False | _ => True end end ->
  q_tags g' i t'.
Proof.
  intros g g' i t t' H E Ht r Hr Hi. rewrite E in Hr. specialize (H r Hr Hi).
  destruct (t_phase t'), (t_phase t); lia.
Qed.

Lemma run_tags : forall evs g, holds p_tags q_tags g -> holds p_tags q_tags (run place clash md mh mc rounds o g evs).
Proof.
  intros evs g. apply (run_holds place clash md mh mc rounds o p_tags q_tags) with (good_pick := fun _ => True) (kills := True); auto.
  - intros h i t HP HQ Eph. split; intros _; apply (q_tags_next h h i t); auto; cbn [set_phase t_trial t_phase]; rewrite Eph; right; auto.
  - intros h i t fuel pick f r _ HP HQ Eph _. apply (q_tags_next h h i t); auto. cbn [t_trial t_phase]. rewrite Eph. right. split; auto.
    destruct r; auto. destruct (g_done h); auto.
  - intros h i t found HP HQ Eph g'. destruct (count_reported h i (t_trial t) found) as [E|(a & E)]; fold g' in E.
    + split; [unfold p_tags; rewrite E; auto|]. split; [intros j u _ Hu; unfold q_tags; rewrite E; auto|].
      apply (q_tags_next h g' i t); auto; cbn [set_phase t_trial t_phase]; auto.
    + split; [|split].
      * unfold p_tags. rewrite E, map_app. cbn [map]. apply NoDup_rev in HP. rewrite <- (rev_involutive (map tag (g_reported h) ++ [_])).
        apply NoDup_rev. rewrite rev_app_distr. cbn [rev app]. constructor; auto.
        intros X. apply in_rev in X. apply in_map_iff in X. destruct X as (r & Er & Hr). injection Er as E1 E2.
        destruct (HQ r Hr E1) as [Y|(_ & Y)]; [lia|]. rewrite Eph in Y. exact Y.
      * intros j u Hj Hu r Hr Er. rewrite E in Hr. apply in_app_or in Hr. destruct Hr as [Hr|[<-|[]]]; [apply Hu; auto|].
        cbn [r_pc] in Er. congruence.
      * intros r Hr Er. rewrite E in Hr. cbn [set_phase t_trial t_phase]. apply in_app_or in Hr. destruct Hr as [Hr|[<-|[]]].
        -- destruct (HQ r Hr Er) as [Y|(Y & Z)]; [auto|right; auto].
        -- right. auto.
  - intros h i t h' t' HP HQ Eph E. unfold merge_conflicts in E.
    destruct (_ || conflicts_file o); injection E as <- <-.
    + split; auto. split; [intros j u _ Hu; exact Hu|]. apply (q_tags_next h _ i t); auto. cbn [set_phase t_trial t_phase]. auto.
    + split; auto. split; auto. apply (q_tags_next h _ i t); auto. cbn [set_phase t_trial t_phase]. auto.
  - intros h i t h' t' HP HQ Eph E. unfold drop_impossible in E. destruct (g_done h).
    { injection E as <- <-. split; auto. split; auto. apply (q_tags_next h _ i t); auto. }
    destruct (is_empty _).
    { injection E as <- <-. split; auto. split; auto. apply (q_tags_next h _ i t); auto. }
    destruct (revise _ _ _ _ _ _ _) as (f & [b| |]); injection E as <- <-.
    + split; auto. split; auto. apply (q_tags_next h _ i t); auto.
    + split; auto. split; [intros j u _ Hu; exact Hu|]. apply (q_tags_next h _ i t); auto.
    + split; auto. split; auto. apply (q_tags_next h _ i t); auto. cbn [set_phase t_trial t_phase]. auto.
Qed.

(** Once the flag is set, nothing is counted any more. *)
Lemma happen_frozen : forall g e, g_done g = true ->
  let g' := happen place clash md mh mc rounds o g e in
  g_done g' = true /\ g_reported g' = g_reported g /\ g_found g' = g_found g /\ g_ret g' = g_ret g.
Proof.
  intros g [|i fuel pick] Hd; cbn [happen]; auto. unfold move. destruct (nth_error (g_threads g) i) as [t|]; auto.
  destruct (t_phase t); auto.
  - destruct (_ || _); auto.
  - destruct (add_stabilization _ _ _ _ _ _ _ _ _ _) as (f & [a| |]); auto.
  - destruct (g_lock g); auto. unfold count_solution. rewrite Hd. auto.
  - unfold merge_conflicts. destruct (_ || conflicts_file o); cbn [set_lock put g_done g_reported g_found g_ret]; rewrite ?Hd; auto.
  - unfold drop_impossible. rewrite Hd. auto.
Qed.
Lemma run_frozen : forall evs g, g_done g = true ->
  let g' := run place clash md mh mc rounds o g evs in
  g_done g' = true /\ g_reported g' = g_reported g /\ g_found g' = g_found g /\ g_ret g' = g_ret g.
Proof.
  induction evs as [|e evs IH]; intros g Hd; cbn [run fold_left]; auto.
  destruct (happen_frozen g e Hd) as (H1 & H2 & H3 & H4). destruct (IH _ H1) as (K1 & K2 & K3 & K4).
  unfold run in *. rewrite K2, K3, K4. auto.
Qed.

(** Without try_all at most one is counted. *)
Definition p_one (g : shared) : Prop := try_all o = false -> length (g_reported g) <= 1 /\ (g_reported g <> [] -> g_done g = true).
Lemma run_one : forall evs g, p_one g -> p_one (run place clash md mh mc rounds o g evs).
Proof.
  intros evs g Hg. cut (holds p_one (fun _ _ _ => True) (run place clash md mh mc rounds o g evs)); [intros (H & _); auto|].
  apply (run_holds place clash md mh mc rounds o p_one (fun _ _ _ => True)) with (good_pick := fun _ => True) (kills := True); auto.
  - intros _ h H E. destruct (H E) as (H1 & H2). auto.
  - intros h i t found H _ _ g'. split; auto. intros E. destruct (H E) as (H1 & H2). unfold g', count_solution.
    destruct (g_done h) eqn:Ed; [auto|]. destruct found as [a|]; [|rewrite Ed; auto].
    destruct (solution_as_conflict o && _); [rewrite Ed; auto|]. cbn [g_reported g_done]. rewrite E.
    destruct (g_reported h); [cbn; auto|]. discriminate H2. discriminate.
  - intros h i t h' t' H _ _ E. split; auto. unfold merge_conflicts in E. destruct (_ || conflicts_file o); injection E as <- <-; auto.
    intros X. destruct (H X) as (H1 & H2). split; auto. cbn [g_reported g_done]. intros Y. rewrite (H2 Y). auto.
  - intros h i t h' t' H _ _ E. split; auto. unfold drop_impossible in E. destruct (g_done h); [injection E as <- <-; auto|].
    destruct (is_empty _); [injection E as <- <-; auto|].
    destruct (revise _ _ _ _ _ _ _) as (f & [b| |]); injection E as <- <-; auto.
    intros X. destruct (H X) as (H1 & H2). auto.
  - split; auto.
Qed.

(** Solutions recorded as conflicts stay conflicts if none is trimmed. *)
Hypothesis Hrec : solution_as_conflict o = true.
Hypothesis Hmc : mc = 0.
Definition p_new (g : shared) : Prop :=
  (forall r, In r (g_reported g) -> rejected (sets (g_conf g)) (r_acts r)) /\
  ForallOrdPairs (fun r s => ~ incl (r_acts r) (r_acts s)) (g_reported g).

Lemma pairs_app : forall A (R : A -> A -> Prop) l x, ForallOrdPairs R l -> (forall y, In y l -> R y x) -> ForallOrdPairs R (l ++ [x]).
Proof.
  intros A R l x H Hx. induction H as [|a l Ha H IH].
  - repeat constructor.
  - cbn. constructor; [|apply IH; intros y Hy; apply Hx; right; auto]. apply Forall_app. split; auto.
    constructor; auto. apply Hx. left. auto.
Qed.
Lemma fs_of_incl : forall l, incl (fs_of l) l /\ incl l (fs_of l).
Proof. intros l. split; intros x Hx; [apply (proj1 (fs_of_in l x))|apply (proj2 (fs_of_in l x))]; auto. Qed.

Lemma run_new : forall evs g, p_new g -> p_new (run place clash md mh mc rounds o g evs).
Proof.
  intros evs g Hg. cut (holds p_new (fun _ _ _ => True) (run place clash md mh mc rounds o g evs)); [intros (H & _); auto|].
  apply (run_holds place clash md mh mc rounds o p_new (fun _ _ _ => True)) with (good_pick := fun _ => True) (kills := True); auto.
  - intros h i t found H _ _ g'. split; auto. destruct H as (H1 & H2). unfold g', count_solution.
    destruct (g_done h) eqn:Ed; [split; auto|]. destruct found as [a|]; [|split; auto].
    rewrite Hrec. cbn [andb]. destruct (conflict_ck (g_conf h) (fs_of a)) eqn:Ek; [split; auto|].
    cbn [negb]. split; cbn [g_reported g_conf].
    + intros r Hr. apply in_app_or in Hr. apply conflict_loop_spec. apply (add_exact place). destruct Hr as [Hr|[<-|[]]].
      * left. apply conflict_loop_spec. auto.
      * right. apply fs_of_incl.
    + apply pairs_app; auto. intros r Hr Hi. cbn [r_acts] in Hi.
      assert (Y : conflict_ck (g_conf h) (fs_of a) = true); [|congruence]. apply conflict_loop_spec.
      apply (rejected_mono _ (r_acts r)); auto. intros x Hx. apply fs_of_incl. auto.
  - intros h i t h' t' H _ _ E. split; auto. unfold merge_conflicts in E. destruct (_ || conflicts_file o); injection E as <- <-; auto.
    destruct H as (H1 & H2). split; auto. cbn [g_conf g_reported]. intros r Hr.
    assert (Y : rejected (sets (add_family place (t_fam t) (g_conf h))) (r_acts r)).
    { apply conflict_loop_spec. apply merge_exact. right. apply conflict_loop_spec. auto. }
    destruct Y as (b & Hb & Hi). exists b. split; auto. apply trim_sets. auto.
  - intros h i t h' t' H _ _ E. split; auto. unfold drop_impossible in E. destruct (g_done h); [injection E as <- <-; auto|].
    destruct (is_empty _); [injection E as <- <-; auto|].
    destruct (revise _ _ _ _ _ _ _) as (f & [b| |]); injection E as <- <-; auto.
  - split; auto.
Qed.
End Reports.

(** ** Minimisation *)
Lemma minimise_safe : forall place clash mc rounds insts given c0 allowed B base,
  length insts <= 2 -> insts <> [] -> (forall I, In I insts -> searchable I given allowed) ->
  solution insts given c0 clash B -> level_good insts allowed given base -> keeps clash insts given c0 base [] ->
  forall todo f f', safe place clash insts given c0 f ->
    (forall c, In c todo -> In c c0 /\ forall x, In x c -> has_cand base x \/ has_act base x) ->
    minimise place clash mc rounds base f todo = Good f' -> safe place clash insts given c0 f'.
Proof.
  intros place clash mc rounds insts given c0 allowed B base Htwo Hne Hse HB Hg Hk.
  induction todo as [|c todo IH]; intros f f' Hf Hc; cbn [minimise]; [intros E; injection E as <-; auto|].
  destruct (1 <? length c); [|apply IH; auto; intros d Hd; apply Hc; right; auto].
  destruct (add_small place clash mc rounds base f base c) as [f1| |] eqn:E; [|discriminate|discriminate].
  apply IH; [|intros d Hd; apply Hc; right; auto].
  destruct (Hc c (or_introl eq_refl)) as (C1 & C2).
  eapply (add_small_safe place clash mc rounds insts given c0 allowed) with (B := B) (base := base) in E; eauto;
    try (intros I HI; apply (Hse I HI)).
  intros S HS Hi. apply (so_conflicts _ _ _ _ _ HS). exists c. auto.
Qed.
Lemma minimise_all_safe : forall place clash mc rounds insts given c0 allowed B base,
  length insts <= 2 -> insts <> [] -> (forall I, In I insts -> searchable I given allowed) ->
  solution insts given c0 clash B -> level_good insts allowed given base -> keeps clash insts given c0 base [] ->
  forall f1 out conf f', safe place clash insts given c0 f1 -> safe place clash insts given c0 conf ->
    (forall cs c, In cs out -> In c cs -> In c c0 /\ forall x, In x c -> has_cand base x \/ has_act base x) ->
    minimise_all place clash mc rounds base f1 conf out = Good f' -> safe place clash insts given c0 f'.
Proof.
  intros place clash mc rounds insts given c0 allowed B base Htwo Hne Hse HB Hg Hk f1.
  induction out as [|cs out IH]; intros conf f' Hf1 Hf Hc; cbn [minimise_all]; [intros E; injection E as <-; auto|].
  destruct (minimise place clash mc rounds base f1 cs) as [f| |] eqn:E; [|discriminate|discriminate].
  apply IH; auto; [|intros d c Hd; apply Hc; right; auto].
  apply safe_merge; auto. apply (minimise_safe place clash mc rounds insts given c0 allowed B base Htwo Hne Hse HB Hg Hk cs f1); auto.
  intros c Hi. apply (Hc cs c (or_introl eq_refl) Hi).
Qed.
Lemma minimise_all_grows : forall place clash mc rounds base f1 out conf f' A,
  minimise_all place clash mc rounds base f1 conf out = Good f' -> rejected (sets conf) A -> rejected (sets f') A.
Proof.
  intros place clash mc rounds base f1. induction out as [|cs out IH]; intros conf f' A; cbn [minimise_all]; [intros E; injection E as <-; auto|].
  destruct (minimise place clash mc rounds base f1 cs) as [f| |] eqn:E; [|discriminate|discriminate].
  intros H HA. apply (IH _ _ _ H). apply conflict_loop_spec. apply merge_exact. left. apply conflict_loop_spec. auto.
Qed.

(** ** The order *)
Lemma max_size_in : forall cs c, In c cs -> length c <= max_size cs.
Proof. induction cs as [|d cs IH]; intros c []; cbn [max_size fold_right]; [subst; lia|]. specialize (IH c H). unfold max_size in IH. lia. Qed.

Lemma of_size_flat : forall ns (cs : list fset), NoDup ns -> (forall c, In c cs -> In (length c) ns) ->
  Permutation (flat_map (fun n => of_size n cs) ns) cs.
Proof.
  induction ns as [|n ns IH]; intros cs Hn Hc.
  - destruct cs as [|c cs]; auto. destruct (Hc c); left; auto.
  - cbn [flat_map]. inversion_clear Hn as [|? ? N1 N2].
    assert (E : flat_map (fun k => of_size k cs) ns = flat_map (fun k => of_size k (filter (fun c => negb (length c =? n)) cs)) ns).
    { clear IH N2 Hc. induction ns as [|k ns IH]; auto. cbn [flat_map].
      rewrite IH by (intros X; apply N1; right; auto). f_equal.
      unfold of_size. assert (Hk : k <> n) by (intros ->; apply N1; left; auto). clear -Hk.
      induction cs as [|c cs IH]; auto. cbn [filter]. destruct (Nat.eqb_spec (length c) n) as [E|E]; cbn [negb].
      - destruct (Nat.eqb_spec (length c) k) as [E2|E2]; [congruence|auto].
      - cbn [filter]. rewrite IH. auto. }
    rewrite E, IH.
    + unfold of_size. clear. induction cs as [|c cs IH]; auto. cbn [filter]. destruct (length c =? n); cbn [negb app].
      * apply perm_skip. auto.
      * rewrite <- Permutation_middle. apply perm_skip. auto.
    + auto.
    + intros c Hi. apply filter_In in Hi. destruct Hi as (Hi & X). apply negb_true_iff, Nat.eqb_neq in X.
      destruct (Hc c Hi) as [Y|Y]; [congruence|auto].
Qed.
