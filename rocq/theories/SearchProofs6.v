(** Completeness, one instance: what [revise_actions_alone] keeps. *)
From Coq Require Import List Arith Bool Lia Permutation.
From Verif Require Import FinLib ReachModel ReachSpec ReachProofs StabModel StabProofs StabProofs2 StabProofs3 StabProofs4 RankModel RankSpec RankProofs
  ConflictModel ConflictSpec ConflictProofs SearchModel SearchSpec SearchProofs SearchProofs2 SearchProofs3 SearchProofs4 SearchProofs5 SearchProps.
Import ListNotations.

Lemma rejected_mono : forall ss s t, rejected ss s -> incl s t -> rejected ss t.
Proof. intros ss s t (b & H1 & H2) H. exists b. split; auto. intros x Hx. auto. Qed.

Lemma incl_fs : forall l t, incl l t -> incl (fs_of l) t.
Proof. intros l t H x Hx. rewrite fs_of_in in Hx. auto. Qed.

Lemma unique_one : forall (g : nat -> bool) l a b, length (filter g l) = 1 -> In a l -> In b l ->
  g a = true -> g b = true -> a = b.
Proof.
  intros g l a b H Ha Hb Ga Gb. assert (Xa : In a (filter g l)) by (apply filter_In; auto).
  assert (Xb : In b (filter g l)) by (apply filter_In; auto).
  destruct (filter g l) as [|x [|y r]]; try discriminate. destruct Xa as [<-|[]], Xb as [<-|[]]. auto.
Qed.

(** ** Blame *)
Lemma blame_rejects : forall I, proper I -> plain I -> forall acts l hinv0 scc blamed B fuel,
  (forall x y, l x y = true <-> moves I acts x y) ->
  keeps_assumed I acts -> stabilises I B ->
  lo_cycles I acts l hinv0 = Good scc -> subset _ (univ I) scc (invariant _ (sysm I)) = false ->
  find_livelock_actions _ (dec I) (univ I) (choose_st I) (axn I) fuel acts l scc (invariant _ (sysm I)) = Good blamed ->
  ~ incl blamed B.
Proof.
  intros I Hp Hpl acts l hinv0 scc blamed B fuel Hl Hk HB Hc Hs Hf Hi. pose proof (pr_all I Hp) as Hall.
  destruct (lo_cycles_spec I Hp Hpl acts l hinv0 _ Hl Hk Hc) as (scc' & E & Hscc). injection E as <-.
  assert (Hex : exists s, scc s = true /\ invariant _ (sysm I) s = false).
  { destruct (existsb (fun s => scc s && negb (invariant _ (sysm I) s)) (univ I)) eqn:Ex.
    - apply existsb_exists in Ex. destruct Ex as (s & _ & Ex). apply andb_true_iff in Ex. exists s.
      destruct Ex as (E1 & E2). apply negb_true_iff in E2. auto.
    - exfalso. assert (X : subset _ (univ I) scc (invariant _ (sysm I)) = true).
      { apply (subset_spec _ _ Hall). intros s E1. destruct (invariant _ (sysm I) s) eqn:E2; auto.
        assert (Y : existsb (fun s => scc s && negb (invariant _ (sysm I) s)) (univ I) = true).
        { apply existsb_exists. exists s. rewrite E1, E2. auto. }
        congruence. }
      congruence. }
  destruct (C63_blamed_actions_livelock (St I) (dec I) (univ I) (choose_st I) (axn I) fuel acts l scc _ blamed
    Hall (pr_choose I Hp) Hl Hex) as (_ & H).
  { intros s Hs1. apply Hscc in Hs1. apply between_pred in Hs1. destruct Hs1 as (t & T1 & T2). exists t.
    split; [apply Hscc; auto|apply Hl; auto]. }
  { exact Hf. }
  destruct (H B Hi) as (c & s & C1 & C2 & C3 & C4 & C5).
  assert (Ha : assumed I c).
  { apply Hscc in C1. destruct C1 as (c1 & c2 & D1 & _ & D3 & _). apply (closed_reaches _ (moves I acts) (assumed I) Hk c1); auto. }
  assert (Hm : forall x y : St I, scc x = true /\ scc y = true /\ (exists a, In a B /\ axn I a x y = true) -> moves I B x y).
  { intros x y (_ & _ & X). exact X. }
  assert (Hlc : legit I c) by (apply (stab_cycle I B HB); auto; revert C2; apply cycle_mono; auto).
  assert (Hls : legit I s).
  { apply (closed_reaches _ (moves I B) (legit I) (st_legit_closed I B HB) c); auto. destruct C3 as (n & C3). exists n.
    revert C3. apply steps_mono. auto. }
  destruct Hls as (Hls & _). congruence.
Qed.

Section One.
Variable place : fset -> list fset -> nat.
Variable clash : nat -> nat -> bool.
Variable I : inst.
Hypothesis Hp : proper I.
Hypothesis Hpl : plain I.
Variable given : list nat.
Hypothesis Hbehav : behav _ (sysm I) <> FutureActiveShadow.
Hypothesis Hstyle : style _ (sysm I) <> FutureAndActiveShadow.
Hypothesis Hdrag : forall a, drags_shadow I a = false.
Hypothesis Hsh : forall x y, legit I x -> specified I x y -> moves I given x y.
Let Hall := pr_all I Hp.

(** A state that needs an action. *)
Definition needy (x : St I) : Prop := assumed I x /\ (invariant _ (sysm I) x = false \/ exists y, specified I x y).
Definition finished (p : pst I) : Prop := forall x, needy x -> exists y, lo p x y = true.

(** [p] with pending [adds] and [dels] is consistent with the solution [S]. *)
Record consistent (S : list nat) (p : pst I) (adds dels : list nat) : Prop := mkConsistent {
  cn_acts : incl (actions p) S;
  cn_adds : incl adds S;
  cn_dels : forall x, In x dels -> ~ In x S;
  cn_given : forall x, In x given -> In x (actions p) \/ In x adds;
  cn_hi : no_partial p = false -> forall x y, moves I (actions p ++ cands p) x y -> hi p x y = true;
  cn_cover : (forall x, In x S -> In x (actions p) \/ In x adds \/ In x (cands p)) \/ finished p
}.

Lemma need_legit : forall S, stabilises I S -> incl given S -> forall x, needy x -> exists y, moves I S x y.
Proof.
  intros S HS Hg x (Ha & Hn). destruct (legit_dec I x) as [Hl|Hl].
  - destruct Hn as [Hn|(y & Hy)]; [destruct Hl; congruence|]. exists y. apply (moves_mono I given); auto.
  - apply (stab_progress I Hp S HS); auto.
Qed.

Lemma unresolved_iff : forall inv l x, (forall s, assumed I s -> (inv s = true <-> invariant _ (sysm I) s = true)) ->
  (unresolved_states I inv l x = true <-> needy x /\ forall y, l x y = false).
Proof.
  intros inv l x Hinv. unfold unresolved_states. rewrite (pminus_spec _ (dec I) (univ I) Hall), (pand_spec _ (dec I) (univ I) Hall),
    (por_spec _ (dec I) (univ I) Hall), (pnot_spec _ (dec I) (univ I) Hall). unfold needy, assumed.
  split.
  - intros H. apply andb_true_iff in H. destruct H as (H1 & H2). apply andb_true_iff in H1. destruct H1 as (H1 & H3).
    split; [split; auto|].
    + apply orb_true_iff in H1. destruct H1 as [H1|H1].
      * left. apply negb_true_iff in H1. destruct (invariant _ (sysm I) x) eqn:E; auto. apply Hinv in E; auto. congruence.
      * right. apply (sources_spec _ _ _ Hall) in H1. exact H1.
    + intros y. destruct (l x y) eqn:E; auto. apply negb_true_iff in H2.
      assert (X : sources _ (dec I) (univ I) l x = true) by (apply (sources_spec _ _ _ Hall); exists y; auto). congruence.
  - intros ((H1 & H2) & H3). apply andb_true_iff. split; [apply andb_true_iff; split; auto; apply orb_true_iff|].
    + destruct H2 as [H2|(y & H2)]; [left|right].
      * apply negb_true_iff. destruct (inv x) eqn:E; auto. apply Hinv in E; auto. congruence.
      * apply (sources_spec _ _ _ Hall). exists y. exact H2.
    + apply negb_true_iff. destruct (sources _ (dec I) (univ I) l x) eqn:E; auto.
      apply (sources_spec _ _ _ Hall) in E. destruct E as (y & E). rewrite H3 in E. discriminate.
Qed.

(** *** Lightweight instances *)
Lemma light_sem : forall S p adds dels, shape I p -> stabilises I S -> consistent S p adds dels ->
  no_partial p = true ->
  exists p', alone_light I p adds dels = Good (p', [], [], []) /\ consistent S p' [] [].
Proof.
  intros S p adds dels [S1 S2 S3 S4] HS [N1 N2 N3 N4 N5 N6] Hnp. unfold alone_light.
  destruct (fold_push adds (actions p) S1) as (F1 & F2).
  destruct (fold_remove1 adds (cands p) S2) as (F3 & F4).
  destruct (fold_remove1 dels _ F3) as (F5 & F6).
  set (acts := fold_left (fun l a => remove1 a l ++ [a]) adds (actions p)) in *.
  set (cs0 := fold_left (fun l a => remove1 a l) adds (cands p)) in *.
  set (cs := fold_left (fun l a => remove1 a l) dels cs0) in *.
  set (l := ror _ (dec I) (univ I) (lo p) (xn_of I adds)).
  assert (Hl : forall s t, l s t = true <-> moves I acts s t).
  { apply (lo_add I Hp); auto. apply S4. apply (pl_async I Hpl). }
  set (d := unresolved_states I (invariant _ (sysm I)) l).
  assert (Hd : forall x, d x = true <-> needy x /\ forall y, l x y = false) by (intros x; apply unresolved_iff; tauto).
  assert (Hg : incl given S) by (intros x Hx; destruct (N4 x Hx); auto).
  assert (Hcov : (forall x, In x S -> In x acts \/ In x cs) \/ (forall x, needy x -> exists y, l x y = true)).
  { destruct N6 as [N6|N6].
    - left. intros x Hx. destruct (N6 x Hx) as [X|[X|X]]; [left; apply F2; auto|left; apply F2; auto|].
      destruct (in_dec Nat.eq_dec x adds) as [Y|Y]; [left; apply F2; auto|]. right. apply F6. split; [apply F4; auto|].
      intros Z. apply (N3 x Z Hx).
    - right. intros x Hx. destruct (N6 x Hx) as (y & Hy). exists y. apply Hl. apply (moves_mono I (actions p)).
      + intros z Hz. apply F2. auto.
      + apply S4; auto. apply (pl_async I Hpl). }
  assert (Hok : negb (is_empty cs) || negb (sat _ (univ I) d) = true).
  { destruct (sat _ (univ I) d) eqn:E; [|rewrite orb_true_r; auto].
    apply (ReachProofs.sat_spec _ _ Hall) in E. destruct E as (x & Hx). apply Hd in Hx. destruct Hx as (Hx & Hx').
    destruct Hcov as [Hc|Hc]; [|destruct (Hc x Hx) as (y & Hy); rewrite Hx' in Hy; discriminate].
    destruct (need_legit S HS Hg x Hx) as (y & a & Ha & Hy).
    destruct (Hc a Ha) as [X|X].
    - exfalso. assert (Y : l x y = true) by (apply Hl; exists a; auto). rewrite Hx' in Y. discriminate.
    - destruct cs; [destruct X|]. reflexivity. }
  rewrite Hok. eexists. split; [reflexivity|]. split; cbn [actions cands no_partial hi].
  - intros x Hx. apply F2 in Hx. destruct Hx; auto.
  - intros x [].
  - intros x [].
  - intros x Hx. left. apply F2. auto.
  - congruence.
  - destruct Hcov as [Hc|Hc]; [left; intros x Hx; destruct (Hc x Hx); auto|right; exact Hc].
Qed.

(** *** check_forward *)
Lemma forward_sem : forall f S p, fam_inv f -> shape I p -> stabilises I S -> consistent S p [] [] ->
  ~ rejected (sets f) S -> 
  (forall x, dead p x = true <-> needy x /\ forall y, lo p x y = false) ->
  ranks p = rank_deadlocks _ (dec I) (univ I) (fun a => sources _ (dec I) (univ I) (axn I a)) (cands p) (dead p) ->
  match check_forward I f p with
  | Bad => False
  | Stuck => True
  | Good (p', a, d, r) => consistent S p' [] [] /\ incl a S /\ (forall x, In x r -> ~ In x S) /\
      (forall x, In x d -> ~ In x a) /\
      (forall x, In x d -> ~ In x S \/ forall s t, axn I x s t = true -> exists t', lo p' s t' = true)
  end.
Proof.
  intros f S p (_ & Fok & _) [S1 S2 S3 S4] HS [N1 N2 N3 N4 N5 N6] Hrej Hd Hr. unfold check_forward.
  assert (Hg : incl given S) by (intros x Hx; destruct (N4 x Hx) as [|[]]; auto).
  destruct (rank_deadlocks_exact _ (dec I) (univ I) Hall (fun a => sources _ (dec I) (univ I) (axn I a)) (cands p) (dead p))
    as (R1 & R2 & R3). rewrite <- Hr in *.
  destruct (length (ranks p) <=? 1) eqn:E.
  - destruct (sat _ (univ I) (dead p)) eqn:Es; auto.
    assert (Hno : forall s, dead p s = false) by (apply (ReachProofs.sat_false _ _ Hall); auto).
    destruct (conflict_ck f (fs_of (actions p))) eqn:Ec.
    + apply Hrej. apply (rejected_mono _ (fs_of (actions p))); [apply conflict_loop_spec; exact Ec|].
      apply incl_fs. auto.
    + split; [|split; [intros x []|split; [intros x []|split; [intros x []|intros x []]]]].
      split; cbn [actions cands no_partial hi]; auto.
      * intros H x y (a & Ha & Hx). rewrite app_nil_r in Ha. apply N5; auto. exists a. split; auto. apply in_or_app. auto.
      * right. intros x Hx. cbn [lo]. destruct (moves_dec I Hp (actions p) x) as [(y & Hy)|Hn].
        -- exists y. apply S4; auto. apply (pl_async I Hpl).
        -- exfalso. assert (X : dead p x = true).
           { apply Hd. split; auto. intros y. destruct (lo p x y) eqn:El; auto. exfalso. apply (Hn y).
             apply S4; auto. apply (pl_async I Hpl). }
           rewrite Hno in X. discriminate.
  - set (adds := dl_cands _ (nth 1 (ranks p) (dl0 _))).
    assert (Hadds : incl adds S).
    { intros a Ha. apply (rk_cands _ _ _ _ _ R1) in Ha. destruct Ha as (Ha & s & Hs & Hc & Hgu).
      apply Hd in Hs. destruct Hs as (Hs & Hs').
      destruct N6 as [N6|N6]; [|destruct (N6 s Hs) as (y & Hy); rewrite Hs' in Hy; discriminate].
      destruct (need_legit S HS Hg s Hs) as (y & b & Hb & Hy).
      destruct (N6 b Hb) as [X|[[]|X]].
      - exfalso. assert (Y : lo p s y = true) by (apply S4; [apply (pl_async I Hpl)|exists b; auto]). rewrite Hs' in Y. discriminate.
      - unfold enabled_count in Hc. assert (a = b); [|subst; auto].
        apply (unique_one (fun a => sources _ (dec I) (univ I) (axn I a) s) (cands p)); auto.
        apply (sources_spec _ _ _ Hall). exists y. auto. }
    destruct (conflict_membs f (fs_of (actions p ++ adds)) (fs_of (cands p)) []) as (ok & membs) eqn:Em.
    destruct (conflict_membs_spec _ _ _ _ _ _ Fok Em) as (M1 & M2).
    assert (Hin : incl (fs_of (actions p ++ adds)) S).
    { apply incl_fs. intros x Hx. apply in_app_or in Hx. destruct Hx; auto. }
    destruct ok; [|apply Hrej; apply (rejected_mono _ _ _ (proj1 M1 eq_refl) Hin)].
    specialize (M2 eq_refl).
    assert (Hm : forall x, In x membs -> ~ In x S).
    { intros x Hx HxS. apply M2 in Hx. destruct Hx as [[]|(_ & Hx)]. apply Hrej.
      apply (rejected_mono _ _ _ Hx). intros z [<-|Hz]; auto. }
    assert (Hma : forall x, In x membs -> ~ In x adds) by (intros x Hx Hy; apply (Hm x Hx); auto).
    split; [split; auto|]. split; auto. split.
    { intros x Hx. rewrite fold_sadd_in in Hx. auto. }
    assert (Huse : forall x, (subset _ (univ I) (sources _ (dec I) (univ I) (axn I x)) (sources _ (dec I) (univ I) (lo p)) ||
      (drags_shadow I x && negb (behav_eqb (behav _ (sysm I)) FutureActiveShadow)
       && negb (style_eqb (style _ (sysm I)) FutureAndActiveShadow)
       && negb (overlap _ (univ I) (sources _ (dec I) (univ I) (axn I x)) (hinv p)))) = true ->
      forall s t, axn I x s t = true -> exists t', lo p s t' = true).
    { intros x. rewrite Hdrag. cbn [andb]. rewrite orb_false_r. intros H s t Hst.
      rewrite (subset_spec _ _ Hall) in H. apply (sources_spec _ (dec I) _ Hall). apply H.
      apply (sources_spec _ _ _ Hall). exists t. auto. }
    split.
    + intros x Hx. apply in_sor in Hx. destruct Hx as [Hx|Hx]; auto. rewrite fold_sadd_in in Hx. apply filter_In in Hx.
      destruct Hx as (_ & Hx). intros Ha. apply (rk_cands _ _ _ _ _ R1) in Ha. destruct Ha as (_ & s & Hs & _ & Hgu).
      apply (sources_spec _ _ _ Hall) in Hgu. destruct Hgu as (t & Ht). destruct (Huse x Hx s t Ht) as (t' & Ht').
      apply Hd in Hs. destruct Hs as (_ & Hs). rewrite Hs in Ht'. discriminate.
    + intros x Hx. apply in_sor in Hx. destruct Hx as [Hx|Hx]; auto. rewrite fold_sadd_in in Hx. apply filter_In in Hx.
      destruct Hx as (_ & Hx). right. apply Huse. exact Hx.
Qed.

(** *** The other instances *)
Lemma tail_sem : forall f S p acts cs l h scc, fam_inv f -> stabilises I S -> ~ rejected (sets f) S ->
  shape I (mkPst acts cs (dead p) l h (hinv p) (ranks p) (no_partial p) (no_conflict p)) ->
  incl acts S -> incl given acts ->
  (forall x y, l x y = true <-> moves I acts x y) ->
  (forall x y, moves I (acts ++ cs) x y -> h x y = true) ->
  (forall x, scc x = true <-> between_cycles _ (moves I acts) (assumed I) x) ->
  (forall x, In x S -> In x acts \/ In x cs) \/ (forall x, needy x -> exists y, l x y = true) ->
  match alone_tail I f p acts cs l h scc with
  | Bad => False
  | Stuck => True
  | Good (p', a, d, r) => consistent S p' [] [] /\ incl a S /\ (forall x, In x r -> ~ In x S) /\
      (forall x, In x d -> ~ In x a) /\
      (forall x, In x d -> ~ In x S \/ forall s t, axn I x s t = true -> exists t', lo p' s t' = true)
  end.
Proof.
  intros f S p acts cs l h scc Hf HS Hrej Hshape Hacts Hg Hl Hh Hscc Hcov. unfold alone_tail, shadow_ck.
  destruct Hpl as [P1 P2 P3 P4 P5].
  assert (Esil : behav_eqb (behav _ (sysm I)) FutureSilent && sat _ (univ I) scc = false).
  { destruct (behav_eqb (behav _ (sysm I)) FutureSilent) eqn:Eb; auto. cbn [andb].
    apply (ReachProofs.sat_false _ _ Hall). intros s. destruct (scc s) eqn:Es; auto. exfalso. apply Hscc in Es.
    destruct Es as (c1 & c2 & C1 & C2 & _). apply (st_silent I S HS) with (x := c1); auto.
    - destruct (behav _ (sysm I)); try discriminate; auto.
    - revert C2. apply cycle_mono. apply moves_mono. auto. }
  rewrite Esil, P1. destruct (scope_eqb (scope _ (sysm I)) FutureInvariant) eqn:Esc.
  { exfalso. apply P2. destruct (scope _ (sysm I)); try discriminate; auto. }
  cbn [negb andb].
  assert (Hok : direct_ok _ (sysm I) l h).
  { split; [|split].
    - intros x y X1 X2. apply (st_legit_closed I S HS x y); auto. apply (moves_mono I acts); auto. apply Hl. auto.
    - intros Hst. split; intros x y X1 X2.
      + apply Hh. apply (moves_mono I given); [intros z Hz; apply in_or_app; auto|]. apply Hsh; auto.
      + apply (st_specified I S HS Hst x y X1). apply (moves_mono I acts); auto. apply Hl. auto.
    - intros [X|X]; contradiction. }
  pose proof (shadow_direct_spec _ (dec I) (univ I) Hall (sysm I) l h) as Hd.
  destruct (shadow_direct _ (dec I) (univ I) (sysm I) l h) as [| |H1]; [contradiction|destruct Hd|].
  destruct Hd as (-> & _). set (H1 := pand _ (dec I) (univ I) (invariant _ (sysm I)) (closed_assume _ (sysm I))).
  destruct (negb (subset _ _ H1 (hinv p))); [exact Logic.I|].
  assert (HH1 : forall s, H1 s = true <-> legit I s).
  { intros s. unfold H1. rewrite (pand_spec _ (dec I) (univ I) Hall), andb_true_iff. unfold legit, assumed. tauto. }
  set (d := unresolved_states I H1 l).
  assert (Hdd : forall x, d x = true <-> needy x /\ forall y, l x y = false).
  { intros x. apply unresolved_iff. intros s Hs. rewrite HH1. unfold legit. tauto. }
  assert (HgS : incl given S) by (intros x Hx; auto).
  (* what the remaining actions of S do *)
  assert (Hgo : forall x, needy x -> exists y, moves I (filter (fun a => smem a (acts ++ cs)) S) x y).
  { intros x Hx. destruct Hcov as [Hc|Hc].
    - destruct (need_legit S HS HgS x Hx) as (y & a & Ha & Hy). exists y, a. split; auto. apply filter_In. split; auto.
      apply smem_iff. apply in_or_app. auto.
    - destruct (Hc x Hx) as (y & Hy). apply Hl in Hy. destruct Hy as (a & Ha & Hy). exists y, a. split; auto.
      apply filter_In. split; auto. apply smem_iff. apply in_or_app. auto. }
  assert (Hmh : forall x y, moves I (filter (fun a => smem a (acts ++ cs)) S) x y -> h x y = true).
  { intros x y (a & Ha & Hy). apply filter_In in Ha. destruct Ha as (_ & Ha). apply smem_iff in Ha. apply Hh. exists a. auto. }
  assert (Esub : subset _ (univ I) d (sources _ (dec I) (univ I) h) = true).
  { apply (subset_spec _ _ Hall). intros x Hx. apply Hdd in Hx. destruct Hx as (Hx & _).
    apply (sources_spec _ _ _ Hall). destruct (Hgo x Hx) as (y & Hy). exists y. apply Hmh. auto. }
  rewrite Esub. cbn [negb]. rewrite P5.
  assert (Hf' : length (univ I) < fuel_of I) by (unfold fuel_of; lia).
  destruct (weak_exact _ (dec I) (univ I) Hall (fuel_of I) h H1 (closed_assume _ (sysm I)) (Some 0) Hf')
    as (b & out & E & [(lim & El & Hlim & _)|(k & _ & _ & Hb & _)]).
  { injection El as <-. lia. }
  rewrite E. assert (b = true); [|subst b].
  { apply Hb. intros s Hs. destruct (stab_near I Hp S HS (filter (fun a => smem a (acts ++ cs)) S)) with (x := s)
      as (j & m & g & G1 & G2 & (G3 & G4) & G5); auto.
    - intros x Hx. apply filter_In in Hx. tauto.
    - intros x Hx Hnl. apply Hgo. split; auto. left. destruct (invariant _ (sysm I) x) eqn:Ei; auto. exfalso. apply Hnl. split; auto.
    - exists j, m, g. split; auto. split; auto. split; [split|].
      + intros i Hi. apply Hmh. apply G3. auto.
      + exact G4.
      + apply HH1. exact G5. }
  set (q := mkPst acts cs d l h H1 (rank_deadlocks _ (dec I) (univ I) (fun a => sources _ (dec I) (univ I) (axn I a)) cs d)
              (no_partial p) (no_conflict p)).
  destruct Hshape as [S1 S2 S3 S4].
  apply (forward_sem f S q); auto.
  - split; auto.
  - split; cbn [actions cands no_partial hi lo q]; auto.
    + intros x [].
    + destruct Hcov as [Hc|Hc]; [left; intros x Hx; destruct (Hc x Hx); auto|right; exact Hc].
Qed.

Lemma alone_sem : forall f S p adds dels, fam_inv f -> shape I p -> stabilises I S -> consistent S p adds dels ->
  (forall a b, In a S -> In b S -> a <> b -> ~ In b given -> clash a b = false) -> ~ rejected (sets f) S ->
  match alone place clash I f p adds dels with
  | (f', Bad) => False
  | (f', Stuck) => f' = f
  | (f', Good (p', a, d, r)) => f' = f /\ consistent S p' [] [] /\ incl a S /\ (forall x, In x r -> ~ In x S) /\
      (forall x, In x d -> ~ In x a) /\
      (forall x, In x d -> ~ In x S \/ forall s t, axn I x s t = true -> exists t', lo p' s t' = true)
  end.
Proof.
  intros f S p adds dels Hf Hshape HS Hc Hco Hrej. unfold alone. destruct (no_partial p) eqn:Enp.
  { destruct (light_sem S p adds dels Hshape HS Hc Enp) as (p' & -> & H). split; auto. split; auto.
    split; [intros x []|]. split; [intros x []|]. split; intros x []. }
  destruct Hshape as [S1 S2 S3 S4]. destruct Hc as [N1 N2 N3 N4 N5 N6]. specialize (N5 Enp).
  specialize (S4 (pl_async I Hpl)).
  unfold alone_full, add_all.
  pose proof (add_one_fold clash adds adds (cands p) (actions p) dels true S2 S1) as H.
  destruct (fold_left (add_one clash adds) adds _) as (((cs & acts) & dels') & all_in).
  destruct H as (H1 & H2 & H3 & H4 & H5 & H6 & H7).
  assert (Hdel : forall x, In x dels' -> ~ In x S).
  { intros x Hx HxS. destruct (H6 x Hx) as [X|(X1 & X2 & a & X3 & X4 & X5)]; [apply (N3 x X HxS)|].
    rewrite (Hco a x) in X5; auto; [discriminate|]. intros Y. destruct (N4 x Y) as [Z|Z]; auto. apply (S3 x Z X1). }
  assert (E0 : is_empty (sand adds dels') = true).
  { apply is_empty_iff. destruct (sand adds dels') as [|x r] eqn:E; auto. exfalso.
    assert (X : In x (sand adds dels')) by (rewrite E; left; auto). apply in_sand in X. destruct X as (X1 & X2).
    apply (Hdel x X2). auto. }
  rewrite E0, (pl_async I Hpl). cbn [negb andb].
  set (l := ror _ (dec I) (univ I) (lo p) (xn_of I adds)).
  assert (Hl : forall s t, l s t = true <-> moves I acts s t) by (apply (lo_add I Hp); auto).
  set (cs' := fold_left _ dels' cs). destruct (fold_remove1 dels' cs H1) as (F1 & F2). fold cs' in F1, F2.
  set (h0 := if all_in then hi p else _).
  set (h := rminus _ _ _ h0 _).
  assert (Hacts : incl acts S) by (intros x Hx; apply H4 in Hx; destruct Hx; auto).
  assert (Hh : forall x y, moves I (acts ++ cs') x y -> h x y = true).
  { intros x y Hm. unfold h. rewrite !(rminus_spec _ (dec I) (univ I) Hall).
    assert (X : h0 x y = true).
    { destruct Hm as (a & Ha & Hy). unfold h0. apply in_app_or in Ha. destruct Ha as [Ha|Ha].
      - apply H4 in Ha. destruct all_in eqn:Eall.
        + apply N5. exists a. split; auto. apply in_or_app. destruct Ha as [Ha|Ha]; auto. right.
          destruct (H7 eq_refl) as (_ & Y). auto.
        + rewrite (ror_spec _ (dec I) (univ I) Hall). apply orb_true_iff. destruct Ha as [Ha|Ha].
          * left. apply N5. exists a. split; auto. apply in_or_app. auto.
          * right. apply (xn_of_spec I Hp). exists a. auto.
      - apply F2 in Ha. destruct Ha as (Ha & _). apply H3 in Ha. destruct Ha as (Ha & _).
        assert (Y : hi p x y = true) by (apply N5; exists a; split; auto; apply in_or_app; auto).
        destruct all_in; auto. rewrite (ror_spec _ (dec I) (univ I) Hall), Y. auto. }
    rewrite X. cbn [andb]. apply negb_true_iff. destruct Hm as (a & Ha & Hy). apply in_app_or in Ha. destruct Ha as [Ha|Ha].
    - assert (Y : l x y = true) by (apply Hl; exists a; auto). rewrite Y. cbn [negb]. rewrite andb_false_r. auto.
    - assert (Y : xn_of I cs' x y = true) by (apply (xn_of_spec I Hp); exists a; auto). rewrite Y. cbn [negb].
      apply andb_false_r. }
  assert (Hk : keeps_assumed I acts).
  { intros x y X1 X2. apply (st_assumed_closed I S HS x y); auto. apply (moves_mono I acts); auto. }
  destruct (lo_cycles_spec I Hp Hpl acts l (hinv p) _ Hl Hk eq_refl) as (scc & -> & Hscc).
  assert (Esub : subset _ (univ I) scc (invariant _ (sysm I)) = true).
  { apply (subset_spec _ _ Hall). intros s Hs. apply Hscc in Hs. apply (stab_between I S HS acts s Hacts) in Hs. apply Hs. }
  rewrite Esub. cbn [negb].
  pose proof (tail_sem f S p acts cs' l h scc Hf HS Hrej) as T.
  destruct (alone_tail I f p acts cs' l h scc) as [(((p' & a) & d) & r)| |].
  - split; auto. apply T; auto.
    + split; auto. cbn [actions cands]. intros x X1 X2. apply F2 in X2. destruct X2 as (X2 & _). apply H3 in X2.
      destruct X2 as (X2 & X3). apply H4 in X1. destruct X1 as [X1|X1]; [apply (S3 x X1 X2)|auto].
    + intros x Hx. apply H4. auto.
    + destruct N6 as [N6|N6].
      * left. intros x Hx. destruct (in_dec Nat.eq_dec x acts) as [Y|Y]; auto. right. apply F2.
        split; [apply H3|intros Z; apply (Hdel x Z Hx)].
        destruct (N6 x Hx) as [X|[X|X]]; [exfalso; apply Y, H4; auto|exfalso; apply Y, H4; auto|].
        split; auto. intros Z. apply Y, H4. auto.
      * right. intros x Hx. destruct (N6 x Hx) as (y & Hy). exists y. apply Hl. apply (moves_mono I (actions p)).
        -- intros z Hz. apply H4. auto.
        -- apply S4. auto.
  - apply T; auto.
    + split; auto. cbn [actions cands]. intros x X1 X2. apply F2 in X2. destruct X2 as (X2 & _). apply H3 in X2.
      destruct X2 as (X2 & X3). apply H4 in X1. destruct X1 as [X1|X1]; [apply (S3 x X1 X2)|auto].
    + intros x Hx. apply H4. auto.
    + destruct N6 as [N6|N6].
      * left. intros x Hx. destruct (in_dec Nat.eq_dec x acts) as [Y|Y]; auto. right. apply F2.
        split; [apply H3|intros Z; apply (Hdel x Z Hx)].
        destruct (N6 x Hx) as [X|[X|X]]; [exfalso; apply Y, H4; auto|exfalso; apply Y, H4; auto|].
        split; auto. intros Z. apply Y, H4. auto.
      * right. intros x Hx. destruct (N6 x Hx) as (y & Hy). exists y. apply Hl. apply (moves_mono I (actions p)).
        -- intros z Hz. apply H4. auto.
        -- apply S4. auto.
  - reflexivity.
Qed.

(** The conflicts that are learned exclude no solution. *)
Lemma alone_learns : forall f B p adds dels f' r, built place f -> shape I p -> stabilises I B ->
  (forall a, In a (actions p) \/ In a adds -> In a B \/ keeps_assumed I [a]) -> ~ rejected (sets f) B ->
  alone place clash I f p adds dels = (f', r) -> built place f' /\ ~ rejected (sets f') B.
Proof.
  intros f B p adds dels f' r Hf [S1 S2 S3 S4] HB Hk Hrej. unfold alone. destruct (no_partial p) eqn:Enp.
  { intros E. injection E as <- _. auto. }
  specialize (S4 (pl_async I Hpl)). unfold alone_full, add_all.
  pose proof (add_one_fold clash adds adds (cands p) (actions p) dels true S2 S1) as H.
  destruct (fold_left (add_one clash adds) adds _) as (((cs & acts) & dels') & all_in).
  destruct H as (H1 & H2 & H3 & H4 & H5 & H6 & H7).
  destruct (negb (is_empty (sand adds dels'))); [intros E; injection E as <- _; auto|].
  rewrite (pl_async I Hpl), (pl_prob I Hpl). cbn [negb andb].
  set (l := ror _ (dec I) (univ I) (lo p) (xn_of I adds)).
  assert (Hl : forall s t, l s t = true <-> moves I acts s t) by (apply (lo_add I Hp); auto).
  assert (Hka : keeps_assumed I acts).
  { intros x y X1 (a & Ha & Hy). apply H4 in Ha. destruct (Hk a Ha) as [X|X].
    - apply (st_assumed_closed I B HB x y); auto. exists a. auto.
    - apply (X x y); auto. exists a. split; [left|]; auto. }
  destruct (lo_cycles I acts l (hinv p)) as [scc| |] eqn:Ec; try (intros E; injection E as <- _; auto; fail).
  destruct (subset _ (univ I) scc (invariant _ (sysm I))) eqn:Es; cbn [negb]; [intros E; injection E as <- _; auto|].
  destruct (find_livelock_actions _ _ _ _ _ _ _ _ _ _) as [blamed| |] eqn:Eb; try (intros E; injection E as <- _; auto; fail).
  intros E. injection E as <- _.
  assert (Hn : ~ incl blamed B) by (apply (blame_rejects I Hp Hpl acts l (hinv p) scc blamed B (fuel_of I)); auto).
  split; [apply built_add; auto; apply fs_of_ok|].
  intros X. apply Hn. assert (Y : conflict_ck (add_conflict place f (fs_of blamed)) B = true).
  { apply conflict_loop_spec. exact X. }
  rewrite add_exact in Y.
  destruct Y as [Y|Y]; [exfalso; apply Hrej; apply conflict_loop_spec; exact Y|]. intros x Hx. apply Y. rewrite fs_of_in. auto.
Qed.
End One.
