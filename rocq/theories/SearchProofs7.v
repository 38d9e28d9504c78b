(** Completeness, one instance: what has been checked when a level is left, and
    what the verification can then still find. *)
From Coq Require Import List Arith Bool Lia Permutation.
From Verif Require Import FinLib ReachModel ReachSpec ReachProofs StabModel StabProofs StabProofs2 StabProofs3 StabProofs4 RankModel RankSpec RankProofs
  ConflictModel ConflictSpec ConflictProofs SearchModel SearchSpec SearchProofs SearchProofs2 SearchProofs3 SearchProofs4 SearchProofs5 SearchProofs6.
Import ListNotations.

Section One.
Variable place : fset -> list fset -> nat.
Variable clash : nat -> nat -> bool.
Variable I : inst.
Hypothesis Hp : proper I.
Hypothesis Hpl : plain I.
Variable given : list nat.
Hypothesis Hbehav : behav _ (sysm I) <> FutureActiveShadow.
Hypothesis Hstyle : style _ (sysm I) <> FutureAndActiveShadow.
Hypothesis Hsh : forall x y, legit I x -> specified I x y -> moves I given x y.
Let Hall := pr_all I Hp.

Record checked (p : pst I) : Prop := mkChecked {
  ck_dead : (forall s, dead p s = false) -> forall x, needy I x -> exists y, lo p x y = true;
  ck_cands : (exists s, dead p s = true) -> cands p <> [];
  ck_legit : no_partial p = false -> forall x y, legit I x -> lo p x y = true -> legit I y;
  ck_spec : no_partial p = false -> style _ (sysm I) <> FutureAndClosed ->
            forall x y, legit I x -> lo p x y = true -> specified I x y;
  ck_silent : no_partial p = false -> behav _ (sysm I) = FutureSilent ->
            forall x, assumed I x -> ~ on_cycle _ (moves I (actions p)) x
}.

Lemma not_dead_go : forall d (l : St I -> St I -> bool), (forall x, d x = true <-> needy I x /\ forall y, l x y = false) ->
  (forall s, d s = false) -> forall x, needy I x -> exists y, l x y = true.
Proof.
  intros d l Hd H x Hx. destruct (sources _ (dec I) (univ I) l x) eqn:E.
  - apply (sources_spec _ _ _ Hall) in E. exact E.
  - exfalso. assert (X : d x = true).
    { apply Hd. split; auto. intros y. destruct (l x y) eqn:El; auto.
      assert (Y : sources _ (dec I) (univ I) l x = true) by (apply (sources_spec _ _ _ Hall); exists y; auto). congruence. }
    rewrite H in X. discriminate.
Qed.

Lemma alone_checked : forall f B p adds dels f' p' a d r, shape I p -> stabilises I B ->
  (forall a, In a (actions p) \/ In a adds -> In a B \/ harmless I a) ->
  alone place clash I f p adds dels = (f', Good (p', a, d, r)) -> checked p'.
Proof.
  intros f B p adds dels f' p' a d r Hshape HB Hk. pose proof Hshape as [S1 S2 S3 S4].
  specialize (S4 (pl_async I Hpl)). unfold alone. destruct (no_partial p) eqn:Enp.
  - unfold alone_light. destruct (negb _ || negb _) eqn:Eo; [|discriminate]. intros E. injection E as _ <- _ _ _.
    set (l := ror _ (dec I) (univ I) (lo p) (xn_of I adds)) in *.
    assert (Hd : forall x, unresolved_states I (invariant _ (sysm I)) l x = true <-> needy I x /\ forall y, l x y = false)
      by (intros x; apply (unresolved_iff I Hp); tauto).
    split; cbn [dead lo cands no_partial actions]; try congruence.
    + apply not_dead_go. exact Hd.
    + intros Hs. apply orb_true_iff in Eo. destruct Eo as [Eo|Eo].
      * apply negb_true_iff in Eo. intros X. rewrite X in Eo. discriminate.
      * apply negb_true_iff in Eo. apply (ReachProofs.sat_spec _ _ Hall) in Hs. congruence.
  - unfold alone_full, add_all.
    pose proof (add_one_fold clash adds adds (cands p) (actions p) dels true S2 S1) as H.
    destruct (fold_left (add_one clash adds) adds _) as (((cs & acts) & dels') & all_in).
    destruct H as (H1 & H2 & H3 & H4 & H5 & H6 & H7).
    destruct (negb (is_empty (sand adds dels'))); [discriminate|].
    rewrite (pl_async I Hpl). cbn [andb].
    set (l := ror _ (dec I) (univ I) (lo p) (xn_of I adds)).
    assert (Hl : forall s t, l s t = true <-> moves I acts s t) by (apply (lo_add I Hp); auto).
    set (cs' := fold_left _ dels' cs). set (h := rminus _ _ _ _ _).
    assert (Hka : keeps_assumed I acts).
    { intros x y X1 (b & Hb & Hy). apply H4 in Hb. destruct (Hk b Hb) as [X|[X X']].
      - apply (st_assumed_closed I B HB x y); auto. exists b. auto.
      - apply (X' x y); auto. }
    destruct (lo_cycles_spec I Hp Hpl acts l (hinv p) _ Hl Hka eq_refl) as (scc & -> & Hscc).
    destruct (negb (subset _ (univ I) scc (invariant _ (sysm I)))).
    { destruct (negb (probabilistic _ (sysm I)) && _); [|discriminate].
      destruct (find_livelock_actions _ _ _ _ _ _ _ _ _ _); discriminate. }
    intros E. injection E as _ E. revert E. unfold alone_tail, shadow_ck.
    destruct (behav_eqb (behav _ (sysm I)) FutureSilent && sat _ (univ I) scc) eqn:Esil; [discriminate|].
    rewrite (pl_puppet I Hpl). destruct (scope_eqb (scope _ (sysm I)) FutureInvariant) eqn:Esc.
    { exfalso. apply (pl_scope I Hpl). destruct (scope _ (sysm I)); try discriminate; auto. }
    cbn [negb andb].
    pose proof (shadow_direct_spec _ (dec I) (univ I) Hall (sysm I) l h) as Hd.
    destruct (shadow_direct _ (dec I) (univ I) (sysm I) l h) as [| |H0]; try discriminate.
    destruct Hd as (EH0 & (D1 & D2 & D3)).
    destruct (negb (subset _ _ H0 (hinv p))); [discriminate|]. cbv zeta.
    assert (HH0 : forall s, H0 s = true <-> legit I s).
    { intros s. rewrite EH0, (pand_spec _ (dec I) (univ I) Hall), andb_true_iff. unfold legit, assumed. tauto. }
    assert (Hdd : forall x, unresolved_states I H0 l x = true <-> needy I x /\ forall y, l x y = false).
    { intros x. apply (unresolved_iff I Hp). intros s Hs. rewrite HH0. unfold legit. tauto. }
    destruct (negb (subset _ _ (unresolved_states I H0 l) _)); [discriminate|].
    destruct (weak_convergence_ck _ _ _ _ _ _ _ _) as [([|] & n)|]; try discriminate.
    set (rk := rank_deadlocks _ _ _ _ _ _).
    destruct (rank_deadlocks_exact _ (dec I) (univ I) Hall (fun a => sources _ (dec I) (univ I) (axn I a)) cs' (unresolved_states I H0 l))
      as (R1 & R2 & R3). fold rk in R1, R2, R3.
    unfold check_forward. cbn [ranks dead actions cands lo hi hinv no_partial no_conflict].
    assert (Hsil : behav _ (sysm I) = FutureSilent -> forall x, assumed I x -> ~ on_cycle _ (moves I acts) x).
    { intros Hb x Hx Hc. rewrite Hb in Esil. cbn [behav_eqb andb] in Esil.
      assert (X : scc x = true).
      { apply Hscc. exists x, x. split; auto. split; auto. split; [apply reaches_refl|]. split; [apply reaches_refl|auto]. }
      assert (Y : sat _ (univ I) scc = true) by (apply (ReachProofs.sat_spec _ _ Hall); exists x; auto). congruence. }
    destruct (length rk <=? 1) eqn:Er.
    + destruct (sat _ (univ I) (unresolved_states I H0 l)) eqn:Es; [discriminate|].
      destruct (conflict_ck f (fs_of acts)); [discriminate|]. intros E. injection E as <- _ _ _.
      split; cbn [dead lo cands no_partial actions]; auto.
      * apply not_dead_go. exact Hdd.
      * intros Hs. apply (ReachProofs.sat_spec _ _ Hall) in Hs. congruence.
      * intros _ Hst. apply (D2 Hst).
    + destruct (conflict_membs _ _ _ _) as ([|] & membs); [|discriminate]. intros E. injection E as <- _ _ _.
      split; cbn [dead lo cands no_partial actions]; auto.
      * apply not_dead_go. exact Hdd.
      * intros _ Hc. destruct R3 as (s & Hs & Hn).
        { intros X. rewrite X in Er. discriminate. }
        rewrite Hc in Hn. unfold enabled_count in Hn. simpl in Hn. apply Nat.leb_gt in Er. lia.
      * intros _ Hst. apply (D2 Hst).
Qed.

(** The verification of a checked level without unresolved states finds nothing
    but livelocks. *)
Lemma verify_checked : forall B p, shape I p -> stabilises I B -> checked p -> (forall s, dead p s = false) ->
  incl given (actions p) ->
  (forall a, In a (actions p) -> In a B \/ harmless I a) ->
  (no_partial p = true -> behav _ (sysm I) <> FutureSilent /\ forall a, In a (actions p) -> In a B \/ obedient I a) ->
  verify_part (existT _ I p) <> Bad.
Proof.
  intros B p [S1 S2 S3 S4] HB [K1 K2 K3 K4 K5] Hdead Hg Hk Ho. specialize (S4 (pl_async I Hpl)).
  unfold verify_part, verify_one. unfold p_actions. cbn [projT1 projT2]. rewrite (pl_async I Hpl).
  set (A := actions p) in *. pose proof (xn_of_spec I Hp A) as Hx.
  assert (A1 : forall x, assumed I x -> ~ moves I A x x).
  { intros x Hx' (a & Ha & Hy). destruct (Hk a Ha) as [X|[X X']].
    - apply (st_no_self_loop I B HB x Hx'). exists a. auto.
    - rewrite X in Hy; auto. discriminate. }
  assert (A2 : closed _ (moves I A) (assumed I)).
  { intros x y X1 (a & Ha & Hy). destruct (Hk a Ha) as [X|[X X']].
    - apply (st_assumed_closed I B HB x y); auto. exists a. auto.
    - apply (X' x y); auto. }
  assert (A3 : forall x, assumed I x -> ~ legit I x -> exists y, moves I A x y).
  { intros x X1 X2. destruct (K1 Hdead x) as (y & Hy).
    - split; auto. left. destruct (invariant _ (sysm I) x) eqn:E; auto. exfalso. apply X2. split; auto.
    - exists y. apply S4. auto. }
  assert (A4 : closed _ (moves I A) (legit I)).
  { intros x y X1 X2. destruct (no_partial p) eqn:Enp; [|apply (K3 eq_refl x y); auto; apply S4; auto].
    destruct X2 as (a & Ha & Hy). destruct (proj2 (Ho eq_refl) a Ha) as [X|[X X']].
    - apply (st_legit_closed I B HB x y); auto. exists a. auto.
    - apply (X x y); auto. }
  assert (A5 : style _ (sysm I) <> FutureAndClosed -> forall x y, legit I x -> (moves I A x y <-> specified I x y)).
  { intros Hst x y Hl. split.
    - intros X2. destruct (no_partial p) eqn:Enp; [|apply (K4 eq_refl Hst x y); auto; apply S4; auto].
      destruct X2 as (a & Ha & Hy). destruct (proj2 (Ho eq_refl) a Ha) as [X|[X X']].
      + apply (st_specified I B HB Hst x y Hl). exists a. auto.
      + apply (X' Hst x y); auto.
    - intros X. apply (moves_mono I given); auto. }
  assert (A6 : behav _ (sysm I) = FutureSilent -> forall x, assumed I x -> ~ on_cycle _ (moves I A) x).
  { intros Hb. destruct (no_partial p) eqn:Enp; [exfalso; apply (proj1 (Ho eq_refl)); auto|]. apply (K5 eq_refl Hb). }
  set (v := stabilization_ck _ _ _ _ _ _ _ _ _).
  assert (Hv : v = Some (Livelock _) \/ exists H n m, v = Some (Accepted _ H n m)).
  { assert (Hf : length (univ I) < fuel_of I) by (unfold fuel_of; lia).
    pose proof (cycle_ck_layers (St I) (dec I) (univ I) Hall (fuel_of I) (xn_of I A)
      (if count_convergence_layers (sopt I) then Some (invariant _ (sysm I)) else None) 0
      (Some (closed_assume _ (sysm I))) Hf) as H. cbv zeta in H.
    destruct H as [(n & _ & _ & H & _)|(scc & m & H & Hscc & _)].
    { apply closed_cycle_closed. intros x y X1 X2. apply (A2 x y); auto. apply Hx. auto. }
    { lia. }
    destruct (subset _ (univ I) scc (invariant _ (sysm I))) eqn:Es.
    - right. apply (stab_accepted I Hp Hpl A). split; auto.
      + apply (st_legit I B HB).
      + apply (converges_to _ (dec I) (univ I) Hall); auto; [apply legit_dec|].
        intros c Hc Hcy. split; auto. apply (subset_spec _ _ Hall) with (s := c) in Es; auto. apply Hscc.
        exists c, c. split; auto.
        assert (X : on_cycle (St I) (rp (St I) (xn_of I A)) c) by (apply (cycle_iff I (moves I A) (rp (St I) (xn_of I A)) c); auto; intros x y; symmetry; apply Hx).
        split; auto. split; [apply reaches_refl|]. split; [apply reaches_refl|auto].
      + intros [X|X]; contradiction.
    - left. unfold v, stabilization_ck, find_cycles. rewrite (pl_prob I Hpl), (pl_layers I Hpl), H.
      assert (E1 : overlap _ (univ I) (invariant _ (sysm I)) (closed_assume _ (sysm I)) = true).
      { apply (overlap_spec _ _ Hall). destruct (st_legit I B HB) as (x & X1 & X2). exists x. auto. }
      assert (E2 : overlap _ (univ I) (closed_assume _ (sysm I)) (sources _ (dec I) (univ I) (rand _ (dec I) (univ I) (xn_of I A) (eqb_st _ (dec I)))) = false).
      { destruct (overlap _ (univ I) (closed_assume _ (sysm I)) _) eqn:E; auto. exfalso. apply (overlap_spec _ _ Hall) in E. destruct E as (x & X1 & X2).
        apply (sources_spec _ _ _ Hall) in X2. destruct X2 as (y & X2).
        rewrite (rand_spec _ (dec I) (univ I) Hall), andb_true_iff in X2. destruct X2 as (X2 & X3).
        unfold eqb_st in X3. destruct (dec I x y); [subst y|discriminate]. apply (A1 x X1). apply Hx. auto. }
      assert (E3 : sat _ (univ I) (pminus _ (dec I) (univ I) (img _ (dec I) (univ I) (xn_of I A) (closed_assume _ (sysm I))) (closed_assume _ (sysm I))) = false).
      { apply (ReachProofs.sat_false _ _ Hall). intros x. rewrite (pminus_spec _ (dec I) (univ I) Hall).
        destruct (img _ _ _ _ _ x) eqn:E; auto. apply (img_spec _ _ _ Hall) in E. destruct E as (y & Y1 & Y2).
        assert (X : assumed I x) by (apply (A2 y x); auto; apply Hx; auto). unfold assumed in X. rewrite X. auto. }
      assert (E4 : subset _ (univ I) (pand _ (dec I) (univ I) (pnot _ (dec I) (univ I) (invariant _ (sysm I))) (closed_assume _ (sysm I)))
                     (sources _ (dec I) (univ I) (xn_of I A)) = true).
      { apply (subset_spec _ _ Hall). intros x X. rewrite (pand_spec _ (dec I) (univ I) Hall), (pnot_spec _ (dec I) (univ I) Hall) in X.
        apply andb_true_iff in X. destruct X as (X1 & X2). apply negb_true_iff in X1.
        apply (sources_spec _ _ _ Hall). destruct (A3 x X2) as (y & Hy); [intros (Y & _); congruence|]. exists y. apply Hx. auto. }
      rewrite E1, E2, E3, E4. cbn [negb andb cyc_scc cyc_layers]. rewrite !andb_false_r. cbn [Nat.ltb Nat.leb andb].
      rewrite Es. reflexivity. }
  clearbody v. destruct Hv as [E|(H & n & m & E)]; subst v; discriminate.
Qed.
End One.
