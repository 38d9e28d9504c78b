(** What the verdicts of stabilization_ck mean for executions. *)
From Coq Require Import List Arith Bool Lia.
From Verif Require Import FinLib ReachModel ReachSpec ReachProofs StabModel StabSpec StabProofs StabProofs2 StabProofs3.
Import ListNotations.

Section Sem.
Variable St : Type.
Variable eq_dec : forall x y : St, {x = y} + {x <> y}.
Variable univ : list St.
Hypothesis Hall : forall s, In s univ.
Notation N := (length univ).
Notation rp := (rp St).
Notation P p := (fun x => p x = true).

(** ** Executions without cycles or deadlocks outside a closed set *)
Lemma long_run_in : forall (R : St -> St -> Prop) (A C : St -> Prop),
  closed St R A -> closed St R C -> (forall c, A c -> on_cycle St R c -> C c) ->
  forall f n, A (f 0) -> run St R f n -> N <= n -> C (f n).
Proof.
  intros R A C HA HC Hcyc f n H0 Hr Hn.
  destruct (long_run_cycle St eq_dec univ Hall R f) as (i & Hi & Hc).
  { intros j Hj. apply Hr. lia. }
  assert (Ai : A (f i)).
  { apply (closed_steps St R A HA (i - 0) (f 0)); auto. apply (run_run_steps St R f n Hr). lia. }
  apply (closed_steps St R C HC (n - i) (f i)).
  - apply Hcyc; auto.
  - apply (run_run_steps St R f n Hr). lia.
Qed.

Lemma converges_to : forall (R : St -> St -> Prop) (A C : St -> Prop) (Cdec : forall x, C x \/ ~ C x),
  closed St R A -> closed St R C -> (forall c, A c -> on_cycle St R c -> C c) ->
  (forall x, A x -> ~ C x -> exists y, R x y) -> converges St R A C.
Proof.
  intros R A C Cdec HA HC Hcyc Hd. split.
  - intros f H0 Hr. exists N. intros m Hm. apply (long_run_in R A C HA HC Hcyc f m); auto.
    intros i _. apply Hr.
  - intros f n H0 Hr Hdead. destruct (Cdec (f n)) as [H|H]; auto.
    destruct (Hd (f n)) as (y & Hy); auto.
    + apply (closed_steps St R A HA (n - 0) (f 0)); auto. apply (run_run_steps St R f n Hr). lia.
    + destruct (Hdead y Hy).
Qed.

(** Going round a cycle forever. *)
Lemma cycle_run : forall (R : St -> St -> Prop) c, on_cycle St R c ->
  exists f, f 0 = c /\ infinite_run St R f /\ forall n, exists m, n <= m /\ f m = c.
Proof.
  intros R c (k & g & H0 & Hk & Hr).
  exists (fun i => g (i mod (S k))). split; [|split].
  - rewrite Nat.mod_0_l; auto.
  - intros i. pose proof (Nat.mod_upper_bound i (S k) ltac:(lia)) as Hb.
    assert (E : S i mod S k = S (i mod S k) \/ S i mod S k = 0 /\ i mod S k = k).
    { pose proof (Nat.div_mod i (S k) ltac:(lia)) as D.
      destruct (Nat.eq_dec (i mod S k) k) as [E|E].
      - right. split; auto. symmetry. apply (Nat.mod_unique _ _ (S (i / S k))); lia.
      - left. symmetry. apply (Nat.mod_unique _ _ (i / S k)); lia. }
    destruct E as [E|(E & E2)].
    + rewrite E. apply Hr. lia.
    + rewrite E, E2, H0, <- Hk. apply Hr. lia.
  - intros n. exists (n * S k). split; [lia|]. rewrite Nat.mod_mul; auto.
Qed.

Lemma converges_cycle : forall (R : St -> St -> Prop) (A C : St -> Prop), converges St R A C ->
  forall c, A c -> on_cycle St R c -> C c.
Proof.
  intros R A C (H & _) c Hc Hcy. destruct (cycle_run R c Hcy) as (f & H0 & Hr & Hf).
  destruct (H f) as (n & Hn); [rewrite H0; auto|auto|]. destruct (Hf n) as (m & Hm & <-). auto.
Qed.

(** ** Randomised systems *)
Section Random.
Variable pcs : list (St -> St -> bool).
Notation procs := (map rp pcs).
Notation none := (fun _ _ : St => false).

Lemma attracted_mono : forall I k x, attracted St procs I k x -> attracted St procs I (S k) x.
Proof.
  intros I. induction k; intros x H.
  - destruct H as [H|[]]. left. auto.
  - destruct H as [H|(H1 & H2)]; [left; auto|]. right. split; auto. intros Q HQ Hm.
    destruct (H2 Q HQ Hm) as (t & Ht & H3). exists t. auto.
Qed.
Lemma attracted_le : forall I j k x, j <= k -> attracted St procs I j x -> attracted St procs I k x.
Proof. intros I j k x Hjk H. induction Hjk; auto. apply attracted_mono. auto. Qed.

(** A scheduler that can avoid I forever. *)
Lemma trap_not_attracted : forall (I X : St -> Prop), (forall x, X x -> ~ I x) ->
  (forall x, X x -> held St pcs none X x) -> forall k x, X x -> ~ attracted St procs I k x.
Proof.
  intros I X H1 H2 k. induction k; intros x Hx H; destruct H as [H|H].
  - exact (H1 x Hx H).
  - exact H.
  - exact (H1 x Hx H).
  - destruct H as (_ & H). destruct (H2 x Hx) as (pc & Hp & (t & Ht) & Hs).
    destruct (H (rp pc)) as (u & Hu & Ha).
    + apply in_map. auto.
    + exists t. exact Ht.
    + apply (IHk u); auto. apply Hs. exact Hu.
Qed.

Lemma no_trap_attracted : forall (A C : St -> bool) (lo : St -> St -> bool),
  (forall x y, rp lo x y <-> exists pc, In pc pcs /\ rp pc x y) ->
  closed St (rp lo) (P A) ->
  (forall x, A x = true -> C x = false -> exists y, rp lo x y) ->
  (forall X : St -> bool, (forall x, X x = true -> A x = true /\ C x = false) ->
     (forall x, X x = true -> held St pcs none (P X) x) -> forall x, X x = false) ->
  forall x, A x = true -> attracted St procs (P C) N x.
Proof.
  intros A C lo Hlo HA Hen Htrap.
  set (B := pminus St eq_dec univ A C).
  assert (HB : forall x, B x = true <-> A x = true /\ C x = false).
  { intros x. unfold B. rewrite (pminus_spec St eq_dec univ Hall), andb_true_iff, negb_true_iff. tauto. }
  destruct (prob_loop_exact St eq_dec univ Hall pcs none (S N) B lo ltac:(lia)) as (k & out & _ & Hr & Hk & Hin & _).
  set (B' := pand St eq_dec univ B (sources St eq_dec univ lo)) in *.
  assert (Hempty : forall x, out x = false).
  { apply Htrap; [|intros x Hx; apply Hin; auto]. intros x Hx. apply HB. apply Hin. auto. }
  assert (G : forall j x, A x = true -> round St eq_dec univ pcs none B' j x = false -> attracted St procs (P C) j x).
  { induction j; intros x Hx Hj.
    - left. cbn [round] in Hj. destruct (C x) eqn:Ec; auto. exfalso.
      assert (B' x = true); [|congruence]. unfold B'. rewrite (pand_spec St eq_dec univ Hall). apply andb_true_iff. split.
      + apply HB. auto.
      + apply (sources_spec St eq_dec univ Hall). destruct (Hen x Hx Ec) as (y & Hy). exists y. exact Hy.
    - destruct (round St eq_dec univ pcs none B' j x) eqn:Ej; [|apply attracted_mono; auto].
      destruct (C x) eqn:Ec; [left; auto|]. right.
      destruct (Hen x Hx Ec) as (y & Hy). apply Hlo in Hy. destruct Hy as (pc0 & Hp0 & Hy). split.
      + exists (rp pc0). split; [apply in_map; auto|]. exists y. exact Hy.
      + intros Q HQ (t0 & Ht0). apply in_map_iff in HQ. destruct HQ as (pc & <- & Hpc).
        cbn [round] in Hj. rewrite (pand_spec St eq_dec univ Hall), Ej in Hj. simpl in Hj.
        assert (X : exists t, pc x t = true /\ round St eq_dec univ pcs none B' j t = false).
        { destruct (sat St univ (fun t => pc x t && negb (round St eq_dec univ pcs none B' j t))) eqn:Es.
          - apply (sat_spec St univ Hall) in Es. destruct Es as (t & Ht). apply andb_true_iff in Ht.
            rewrite negb_true_iff in Ht. eauto.
          - exfalso. pose proof (proj1 (sat_false St univ Hall _) Es) as F.
            assert (unresolved St eq_dec univ pcs none (round St eq_dec univ pcs none B' j) x = true); [|congruence].
            apply (unresolved_spec St eq_dec univ Hall). exists pc. split; auto. split; [exists t0; exact Ht0|].
            intros t Ht. split; auto. specialize (F t). cbn beta in F. rewrite Ht in F. simpl in F. apply negb_false_iff in F. auto. }
        destruct X as (t & Ht & Hj'). exists t. split; [exact Ht|]. apply IHj; auto.
        apply (HA x t Hx). apply Hlo. exists pc. auto. }
  intros x Hx. apply (attracted_le _ k); auto. apply G; auto. rewrite <- Hr. apply Hempty.
Qed.
End Random.

(** ** Accepted systems *)
Section Acc.
Variable fuel : nat.
Hypothesis Hf : N < fuel.
Variable s : sys St.
Variable opt : options.
Variable pcs : list (St -> St -> bool).
Variables lo hi : St -> St -> bool.
Notation invb := (invariant St s).
Notation Ab := (closed_assume St s).
Notation same := (same_shadow St s).
Notation IA := (IA St s).
Hypothesis same_refl : forall x, rp same x x.
Hypothesis same_sym : forall x y, rp same x y -> rp same y x.
Hypothesis same_trans : forall x y z, rp same x y -> rp same y z -> rp same x z.
Hypothesis Hpcs : probabilistic St s = true ->
  forall x y, rp lo x y <-> exists pc, In pc pcs /\ rp pc x y.

Notation check := (stabilization_ck St eq_dec univ fuel s opt pcs lo hi).

Lemma verdict_known : forall v, check = Some v -> verdict_ok St s opt pcs lo hi v.
Proof.
  intros v H. destruct (stab_spec St eq_dec univ Hall fuel Hf s opt pcs lo hi same_refl same_sym same_trans Hpcs)
    as (v' & E & Hv). rewrite H in E. inversion E; subst. auto.
Qed.

Definition base (H core : St -> bool) : Prop :=
  (forall x, core x = true -> H x = true) /\ (forall x, H x = true -> IA x) /\
  (exists x, core x = true) /\
  closed St (rp lo) (P Ab) /\ closed St (rp lo) (P core) /\ closed St (rp lo) (P H) /\
  (forall x, Ab x = true -> core x = false -> exists y, rp hi x y) /\
  (direct St s \/ scope St s = DirectInvariant -> forall x, IA x -> H x = true).

Lemma base_of : forall H scc core,
  (exists x, IA x) -> closed St (rp lo) (P Ab) ->
  (forall x, Ab x = true -> H x = false -> exists y, rp hi x y) ->
  inv_fact St s pcs lo hi scc core H -> base H core.
Proof.
  intros H scc core Hne HA Hd [(Hdir & Hc & HH & Hok)|(Hdir & Hok)]; unfold base.
  - assert (E : forall x, core x = true <-> H x = true) by (intros x; rewrite Hc, HH; tauto).
    assert (Hcl : closed St (rp lo) (P H)).
    { intros x y Hx Hxy. apply HH. apply HH in Hx. destruct Hok as (Hok & _). exact (Hok x y Hx Hxy). }
    split; [intros x; apply E|]. split; [intros x; apply HH|].
    split; [destruct Hne as (x & Hx); exists x; apply Hc; auto|]. split; auto.
    split; [intros x y Hx Hxy; apply E; apply E in Hx; exact (Hcl x y Hx Hxy)|]. split; auto.
    split; [|intros _ x; apply HH]. intros x Hx Hn. apply Hd; auto. destruct (H x) eqn:Eh; auto. apply E in Eh. congruence.
  - destruct Hok. split; auto. split; auto. split; auto. split; auto. split; auto. split; auto.
    split; [|intros [X|X]; auto; contradiction]. intros x Hx Hn. destruct (H x) eqn:Eh; [|auto].
    destruct (core_reach x Eh) as (y & Hy & n & Hs). destruct n.
    + apply steps_0 in Hs. subst. congruence.
    + apply steps_S in Hs. destruct Hs as (u & Hu & _). eauto.
Qed.

(** Cyclic states are in the core. *)
Lemma cycles_in_core : forall H scc core nl, probabilistic St s = false ->
  cyc_fact St s opt pcs lo scc nl -> (max_nlayers opt = 0 \/ nl <= max_nlayers opt) ->
  (forall x, scc x = true -> invb x = true) -> closed St (rp lo) (P Ab) ->
  inv_fact St s pcs lo hi scc core H ->
  (forall x, scc x = true -> core x = true) /\
  (forall c, Ab c = true -> on_cycle St (rp lo) c -> scc c = true).
Proof.
  intros H scc core nl Hp (Hcyc & _) Hm Hsi HA Hi.
  destruct (Hcyc Hp) as [(H0 & -> & _)|(k & _ & _ & _ & _ & Hb)]; [lia|]. split.
  - intros x Hx. destruct Hi as [(_ & Hc & _)|(_ & Hok)].
    + apply Hc. split; auto. apply Hb in Hx. destruct Hx as (c1 & c2 & Hc1 & _ & Hr & _).
      exact (closed_reaches St (rp lo) (P Ab) HA c1 x Hc1 Hr).
    + apply (core_scc _ _ _ _ _ _ _ _ Hok Hp). auto.
  - intros c Hc Hcy. apply Hb. exists c, c. repeat split; auto; apply reaches_refl.
Qed.

Theorem accepted_np : forall H n m, probabilistic St s = false -> check = Some (Accepted St H n m) ->
  exists core, base H core /\
  (forall c, Ab c = true -> on_cycle St (rp lo) c -> core c = true) /\
  ((forall x y, lo x y = hi x y) -> converges St (rp lo) (P Ab) (P core) /\
     forall f k, Ab (f 0) = true -> run St (rp lo) f k -> N <= k -> core (f k) = true) /\
  (behav St s = FutureSilent -> forall c, Ab c = true -> ~ on_cycle St (rp lo) c).
Proof.
  intros H n m Hp Hc. apply verdict_known in Hc. cbn [verdict_ok] in Hc.
  destruct Hc as (Hne & _ & HA & _ & scc & core & nl & rn & H1 & H2 & H3 & H4 & H5 & H6 & H7 & H8).
  exists core. pose proof (base_of H scc core Hne HA H6 H5) as Hb. split; auto.
  destruct (cycles_in_core H scc core nl Hp H1 H2 H3 HA H5) as (C1 & C2).
  assert (Hcy : forall c, Ab c = true -> on_cycle St (rp lo) c -> core c = true) by auto.
  split; auto. split.
  - intros Heq. destruct Hb as (B1 & B2 & B3 & B4 & B5 & B6 & B7 & B8).
    split.
    + apply converges_to; auto.
      * intros x. destruct (core x); [left|right]; congruence.
      * intros x Hx Hn. destruct (B7 x Hx) as (y & Hy); [destruct (core x); congruence|].
        exists y. unfold ReachProofs.rp in *. rewrite Heq. auto.
    + intros f k. exact (long_run_in (rp lo) (P Ab) (P core) B4 B5 Hcy f k).
  - intros Hs c Hc Hon. assert (scc c = true) by auto. rewrite H4 in *; auto. discriminate.
Qed.

(** The number of strong layers. *)
Theorem accepted_strong : forall H n m, probabilistic St s = false -> check = Some (Accepted St H n m) ->
  exists k, n = (if count_convergence_steps opt then k else k + 1) /\
  (max_nlayers opt = 0 \/ k + 1 <= max_nlayers opt) /\
  (if count_convergence_layers opt then
     (forall x y, Ab x = true -> steps St (rp lo) k x y -> invb y = true) /\
     (forall i, i < k -> exists x y, Ab x = true /\ steps St (rp lo) i x y /\ invb y = false)
   else
     (forall y, endpoints St (rp lo) (P Ab) k y <-> endpoints St (rp lo) (P Ab) (S k) y) /\
     (forall i, i < k -> ~ forall y, endpoints St (rp lo) (P Ab) i y <-> endpoints St (rp lo) (P Ab) (S i) y)).
Proof.
  intros H n m Hp Hc. apply verdict_known in Hc. cbn [verdict_ok] in Hc.
  destruct Hc as (Hne & _ & HA & _ & scc & core & nl & rn & H1 & H2 & H3 & H4 & H5 & H6 & H7 & H8).
  pose proof (base_of H scc core Hne HA H6 H5) as (B1 & B2 & B3 & B4 & B5 & B6 & B7 & B8).
  destruct (cycles_in_core H scc core nl Hp H1 H2 H3 HA H5) as (C1 & C2).
  destruct (proj1 H1 Hp) as [(L0 & -> & _)|(k & -> & Hk & Hs & Hns & _)]; [lia|].
  exists k. split. { destruct (count_convergence_steps opt); inversion H8; lia. }
  split; auto. unfold settles in *. destruct (count_convergence_layers opt).
  - split.
    + intros x y Hx Hxy. destruct Hs as [Hs|Hs].
      * (* a fixpoint: y is the end of arbitrarily long executions *)
        assert (G : forall j z, endpoints St (rp lo) (P Ab) k z <-> endpoints St (rp lo) (P Ab) (k + j) z).
        { induction j; intros z; [rewrite Nat.add_0_r; tauto|].
          assert (E : forall z, endpoints St (rp lo) (P Ab) (S (k + j)) z <->
                     endpoints St (rp lo) (P Ab) (S k) z).
          { intros w. unfold endpoints. split; intros (a & Ha & Hw); apply steps_S_r in Hw; destruct Hw as (u & Hu & Hw).
            - destruct (proj2 (IHj u) (ex_intro _ a (conj Ha Hu))) as (b & Hb & Hbu).
              exists b. split; auto. apply steps_S_r. eauto.
            - destruct (proj1 (IHj u) (ex_intro _ a (conj Ha Hu))) as (b & Hb & Hbu).
              exists b. split; auto. apply steps_S_r. eauto. }
          replace (k + S j) with (S (k + j)) by lia. rewrite E. apply Hs. }
        destruct (proj1 (G N y)) as (a & Ha & f & F0 & F1 & Fr); [exists x; auto|].
        destruct (B2 y); auto. apply B1. rewrite <- F1.
        apply (long_run_in (rp lo) (P Ab) (P core) B4 B5 (fun c Hc1 Hc2 => C1 c (C2 c Hc1 Hc2)) f (k + N));
        cbn beta; [rewrite F0; auto|auto|lia].
      * apply Hs. exists x. auto.
    + intros i Hi. destruct (sat St univ (fun y => span St eq_dec univ lo Ab i y && negb (invb y))) eqn:E.
      * apply (sat_spec St univ Hall) in E. destruct E as (y & Hy). apply andb_true_iff in Hy.
        rewrite negb_true_iff, (span_spec St eq_dec univ Hall) in Hy. destruct Hy as ((x & Hx1 & Hx2) & Hy).
        exists x, y. auto.
      * exfalso. apply (Hns i Hi). right. intros y (x & Hx & Hxy).
        pose proof (proj1 (sat_false St univ Hall _) E y) as F. cbn beta in F.
        assert (X : span St eq_dec univ lo Ab i y = true) by (apply (span_spec St eq_dec univ Hall); eauto).
        rewrite X in F. simpl in F. apply negb_false_iff in F. auto.
  - split.
    + destruct Hs as [Hs|[]]. auto.
    + intros i Hi X. apply (Hns i Hi). left. auto.
Qed.

Notation near r A I := (ReachSpec.near St (rp r) A I).

(** The number of weak layers, asynchronous, same lower and upper relation. *)
Theorem accepted_weak : forall H n m, probabilistic St s = false -> check = Some (Accepted St H n m) ->
  (forall x y, lo x y = hi x y) -> synchronous opt = false ->
  exists k, m = (if count_convergence_steps opt then k else k + 1) /\
  let goal := if count_convergence_layers opt then P H
     else fun x => deadlocked St (rp lo) x \/ between_cycles St (rp lo) (P Ab) x in
  (forall x, Ab x = true -> near lo (P Ab) goal k x) /\
  (forall i, i < k -> exists x, Ab x = true /\ ~ near lo (P Ab) goal i x).
Proof.
  intros H n m Hp Hc Heq Hsync. pose proof Hc as Hacc. apply verdict_known in Hc. cbn [verdict_ok] in Hc.
  destruct Hc as (Hne & _ & HA & _ & scc & core & nl & rn & H1 & H2 & H3 & H4 & H5 & H6 & H7 & H8).
  pose proof (base_of H scc core Hne HA H6 H5) as (B1 & B2 & B3 & B4 & B5 & B6 & B7 & B8).
  destruct (cycles_in_core H scc core nl Hp H1 H2 H3 HA H5) as (C1 & C2).
  destruct H7 as (_ & H7). specialize (H7 Heq). rewrite Hsync in H7.
  destruct H7 as (k & -> & W1 & W2). exists k.
  split. { destruct (count_convergence_steps opt); inversion H8; lia. }
  destruct (proj1 H1 Hp) as [(L0 & -> & _)|(k' & -> & Hk & Hs & Hns & Hb)]; [lia|].
  set (goal0 := if count_convergence_layers opt then P H else fun x => deadlocked St (rp lo) x \/ scc x = true) in *.
  set (goal := if count_convergence_layers opt then P H
     else fun x => deadlocked St (rp lo) x \/ between_cycles St (rp lo) (P Ab) x).
  assert (Hg : forall x, goal0 x <-> goal x).
  { intros x. unfold goal0, goal. destruct (count_convergence_layers opt); [tauto|]. rewrite Hb. tauto. }
  assert (Hn : forall j x, near lo (P Ab) goal0 j x <-> near lo (P Ab) goal j x).
  { intros. apply near_ext. auto. }
  cbn zeta.
  assert (Hex : forall x, Ab x = true -> exists j, near lo (P Ab) goal0 j x).
  { (* an execution of N steps from x stays in the assumed states and ends up in the goal, or stops before *)
    assert (Q : forall n x, Ab x = true -> (exists j, near lo (P Ab) goal0 j x) \/ exists f, f 0 = x /\ run St (rp lo) f n).
    { induction n0; intros x Hx; [right; exists (fun _ => x); split; auto; intros i Hi; lia|].
      destruct (sources St eq_dec univ lo x) eqn:Es.
      - apply (sources_spec St eq_dec univ Hall) in Es. destruct Es as (y & Hy).
        destruct (IHn0 y (HA x y Hx Hy)) as [(j & i & f & Hi & F0 & (Fr & FA) & Fg)|(f & F0 & Fr)].
        + left. exists (S i), (S i), (fun i => match i with 0 => x | S i => f i end).
          split; [lia|]. split; auto. split; [|exact Fg]. split.
          * intros [|j'] Hj'; [rewrite F0; exact Hy|apply Fr; lia].
          * intros [|j'] Hj'; [exact Hx|apply FA; lia].
        + right. exists (fun i => match i with 0 => x | S i => f i end). split; auto.
          intros [|j'] Hj'; [rewrite F0; exact Hy|apply Fr; lia].
      - assert (Hdead : deadlocked St (rp lo) x).
        { intros y Hy. assert (sources St eq_dec univ lo x = true); [|congruence].
          apply (sources_spec St eq_dec univ Hall). exists y. exact Hy. }
        left. exists 0, 0, (fun _ => x). split; auto. split; auto.
        split; [split; [intros i Hi; lia|intros i Hi; exact Hx]|].
        unfold goal0. destruct (count_convergence_layers opt); [|auto].
        destruct (core x) eqn:Ec; [auto|]. destruct (B7 x Hx Ec) as (y & Hy). exfalso. apply (Hdead y).
        unfold ReachProofs.rp in *. rewrite Heq. auto. }
    intros x Hx. destruct (Q N x Hx) as [Hj|(f & F0 & Fr)]; auto.
    destruct (long_run_cycle St eq_dec univ Hall (rp lo) f Fr) as (i & Hi & Hci).
    assert (FA : forall j, j <= N -> Ab (f j) = true).
    { intros j Hj. apply (closed_steps St (rp lo) (P Ab) HA (j - 0) (f 0)); [cbn beta; rewrite F0; auto|].
      apply (run_run_steps St (rp lo) f N Fr). lia. }
    exists i, i, f. split; auto. split; auto. split.
    - split; [intros j Hj; apply Fr; lia|intros j Hj; apply FA; lia].
    - unfold goal0. destruct (count_convergence_layers opt); [apply B1, C1, C2; auto|].
      right. apply C2; auto. }
  split.
  - intros x Hx. apply Hn. destruct (Hex x Hx) as (j & Hj). eapply W1. exact Hj.
  - intros i Hi. destruct (W2 i Hi) as (x & Hx1 & Hx2). exists x. split.
    + destruct Hx1 as (q & f & _ & <- & (_ & FA) & _). apply FA. lia.
    + intros X. apply Hx2. apply Hn. auto.
Qed.

(** Randomised systems. *)
Notation procs := (map rp pcs).

Theorem accepted_prob : forall H n m, probabilistic St s = true -> check = Some (Accepted St H n m) ->
  (forall x y, lo x y = hi x y) ->
  exists core, base H core /\ forall x, Ab x = true -> attracted St procs (P core) N x.
Proof.
  intros H n m Hp Hc Heq. apply verdict_known in Hc. cbn [verdict_ok] in Hc.
  destruct Hc as (Hne & _ & HA & _ & scc & core & nl & rn & H1 & H2 & H3 & H4 & H5 & H6 & H7 & H8).
  pose proof (base_of H scc core Hne HA H6 H5) as Hb. exists core. split; auto.
  destruct Hb as (B1 & B2 & B3 & B4 & B5 & B6 & B7 & B8).
  specialize (Hpcs Hp).
  destruct (proj2 H1 Hp) as (_ & T & T1 & T2 & T3 & T4 & T5).
  apply (no_trap_attracted pcs Ab core lo); auto.
  { intros x Hx Hn. destruct (B7 x Hx Hn) as (y & Hy). exists y. unfold ReachProofs.rp in *. rewrite Heq. auto. }
  intros X HX1 HX2 x. destruct (X x) eqn:Ex; auto. exfalso.
  (* the part of X inside T if there is any, else X *)
  set (Z := if sat St univ (fun y => X y && T y) then fun y => X y && T y else X).
  assert (HZX : forall y, Z y = true -> X y = true).
  { intros y. unfold Z. destruct (sat _ _ _); auto. intros E. apply andb_true_iff in E. tauto. }
  assert (HZ : forall y, Z y = true -> held St pcs (into St T) (P Z) y).
  { intros y Hy. destruct (HX2 y (HZX y Hy)) as (pc & Q1 & Q2 & Q3). exists pc. split; auto. split; auto.
    intros t Ht. destruct (Q3 t Ht) as (Q4 & _). unfold Z in *.
    destruct (sat St univ (fun y => X y && T y)) eqn:Es.
    - apply andb_true_iff in Hy. destruct Hy as (Hy1 & Hy2).
      assert (Tt : T t = true). { apply (T2 y t Hy2). apply Hpcs. exists pc. split; auto. }
      rewrite Q4, Tt. split; auto. unfold into. rewrite Hy2. auto.
    - split; auto. pose proof (proj1 (sat_false St univ Hall _) Es t) as F. cbn beta in F. rewrite Q4 in F. simpl in F.
      unfold into. rewrite F. apply andb_false_r. }
  assert (HZne : exists y, Z y = true).
  { unfold Z. destruct (sat St univ (fun y => X y && T y)) eqn:Es; [apply (sat_spec St univ Hall); auto|eauto]. }
  destruct (T5 Z) as (Y & Y1 & Y2 & y & Y3); auto. { intros z Hz. apply HX1. auto. }
  destruct H5 as [(Hdir & Hc & _)|(_ & Hok)].
  - destruct (Y1 y Y3) as (E1 & E2). destruct (HX1 y) as (E3 & E4); auto.
    assert (core y = true); [|congruence]. apply Hc. split; auto.
  - apply (core_trap _ _ _ _ _ _ _ _ Hok Hp Y) with (x := y); auto.
    + intros z Hz. destruct (Y1 z Hz) as (E1 & E2). split; auto. split; [apply HX1; auto|].
      destruct (Y2 z Hz) as (pc & Q1 & (t & Q2) & _). exists t. apply Hpcs. exists pc. split; auto.
    + intros z Hz. eapply held_weaken. apply Y2. auto.
Qed.

(** Rejected for livelocks: no closed part of the invariant is attracting. *)
Theorem livelock_prob : probabilistic St s = true -> check = Some (Livelock St) ->
  exists x, Ab x = true /\ forall C : St -> Prop, (forall y, C y -> IA y) -> closed St (rp lo) C ->
    forall k, ~ attracted St procs C k x.
Proof.
  intros Hp Hc. apply verdict_known in Hc. destruct Hc as (HA & scc & nl & x & H1 & H2 & Hx & Hi).
  destruct (proj2 H1 Hp) as (_ & T & T1 & T2 & T3 & T4 & T5).
  exists x. split; [apply T4; auto|]. intros C HC1 HC2 k.
  apply (trap_not_attracted pcs C (fun y => scc y = true /\ T y = false)).
  - intros y (_ & Hy) HCy. rewrite (T3 C) in Hy; auto. discriminate.
  - intros y (Hy1 & Hy2). destruct (T4 y Hy1) as (_ & pc & Q1 & Q2 & Q3). exists pc. split; auto. split; auto.
    intros t Ht. destruct (Q3 t Ht) as (Q4 & Q5). split; auto. split; auto.
    unfold into in Q5. rewrite Hy2 in Q5. exact Q5.
  - split; auto. destruct (T x) eqn:E; auto. apply T1 in E. destruct E. congruence.
Qed.

Theorem livelock_np : probabilistic St s = false -> check = Some (Livelock St) ->
  closed St (rp lo) (P Ab) /\
  (exists x, invb x = false /\ between_cycles St (rp lo) (P Ab) x) /\
  (forall C : St -> Prop, (forall y, C y -> IA y) -> closed St (rp lo) C ->
     ~ converges St (rp lo) (P Ab) C).
Proof.
  intros Hp Hc. apply verdict_known in Hc. destruct Hc as (HA & scc & nl & x & H1 & H2 & Hx & Hi).
  destruct (proj1 H1 Hp) as [(L0 & -> & _)|(k & -> & _ & _ & _ & Hb)]; [lia|].
  apply Hb in Hx. split; auto. split; [eauto|]. intros C HC1 HC2 Hconv.
  destruct Hx as (c1 & c2 & A1 & A2 & A3 & _).
  assert (C c1) by (eapply converges_cycle; eauto).
  pose proof (closed_reaches St (rp lo) C HC2 c1 x H A3) as HCx. apply HC1 in HCx. destruct HCx. congruence.
Qed.

(** Systems with shadow variables or an eventual invariant. *)
Notation spec := (shadow_xn St s).
Notation vis := (vis St s).

Lemma run_scc : forall H scc core nl, probabilistic St s = false ->
  cyc_fact St s opt pcs lo scc nl -> (max_nlayers opt = 0 \/ nl <= max_nlayers opt) ->
  closed St (rp lo) (P Ab) ->
  (forall x, scc x = true -> invb x = true) -> inv_fact St s pcs lo hi scc core H ->
  forall f, Ab (f 0) = true -> infinite_run St (rp lo) f -> forall j, N <= j -> scc (f j) = true.
Proof.
  intros H scc core nl Hp Hcyc Hm HA Hsi Hi f H0 Hr j Hj.
  destruct (cycles_in_core H scc core nl Hp Hcyc Hm Hsi HA Hi) as (_ & C2).
  destruct (proj1 Hcyc Hp) as [(L0 & -> & _)|(k & -> & _ & _ & _ & Hb)]; [lia|].
  assert (HAf : forall i, Ab (f i) = true).
  { induction i; auto. exact (HA _ _ IHi (Hr i)). }
  assert (Hstep : forall a b, a <= b -> reaches St (rp lo) (f a) (f b)).
  { intros a b Hab. exists (b - a). apply (run_run_steps St (rp lo) f b); [intros i _; apply Hr|lia]. }
  destruct (long_run_cycle St eq_dec univ Hall (rp lo) f) as (i1 & Hi1 & Hc1); [intros i _; apply Hr|].
  destruct (long_run_cycle St eq_dec univ Hall (rp lo) (fun i => f (j + i))) as (i2 & Hi2 & Hc2).
  { intros i _. replace (j + S i) with (S (j + i)) by lia. apply Hr. }
  apply Hb. exists (f i1), (f (j + i2)). split; [apply HAf|]. split; auto.
  split; [apply Hstep; lia|]. split; [apply Hstep; lia|auto].
Qed.

Theorem accepted_shadow : forall H n m, probabilistic St s = false -> check = Some (Accepted St H n m) ->
  ~ direct St s -> (forall x y, lo x y = hi x y) ->
  exists core, base H core /\ converges St (rp lo) (P Ab) (P core) /\
  (forall x y, core x = true -> rp lo x y -> allowed St s x y) /\
  (scope St s <> FutureInvariant ->
     (forall x, IA x -> exists y, core y = true /\ rp same x y) /\
     (forall x y, IA x -> vis x y -> style St s <> FutureAndSilent /\
        exists x' y', core x' = true /\ core y' = true /\ rp lo x' y' /\ rp same x x' /\ rp same y y')) /\
  (forall x, core x = true -> exists y,
    reaches St (fun a b => rp lo a b /\ rp same a b /\ core b = true) x y /\ core y = true /\
    ((forall z, ~ vis y z) \/ exists z, rp lo y z /\ vis y z /\ core z = true)) /\
  (forall f, Ab (f 0) = true -> infinite_run St (rp lo) f ->
     forall k, (forall i, k <= i -> rp same (f i) (f (S i))) -> forall i, k <= i -> forall z, ~ vis (f i) z) /\
  (behav St s = FutureActiveShadow ->
     (forall x, Ab x = true -> exists y, rp lo x y) /\
     (forall f, Ab (f 0) = true -> infinite_run St (rp lo) f ->
        exists k, forall i, k <= i -> vis (f i) (f (S i)) /\ ~ rp same (f i) (f (S i)))).
Proof.
  intros H n m Hp Hc Hnd Heq. apply verdict_known in Hc. cbn [verdict_ok] in Hc.
  destruct Hc as (Hne & _ & HA & _ & scc & core & nl & rn & H1 & H2 & H3 & H4 & H5 & H6 & H7 & H8).
  exists core. pose proof (base_of H scc core Hne HA H6 H5) as Hb. split; auto.
  destruct (cycles_in_core H scc core nl Hp H1 H2 H3 HA H5) as (C1 & C2).
  pose proof (run_scc H scc core nl Hp H1 H2 HA H3 H5) as Hrun.
  destruct Hb as (B1 & B2 & B3 & B4 & B5 & B6 & B7 & B8).
  assert (Hh : forall x y, rp hi x y <-> rp lo x y) by (intros x y; unfold ReachProofs.rp; rewrite Heq; tauto).
  assert (Hcv : converges St (rp lo) (P Ab) (P core)).
  { apply converges_to; auto.
    * intros x. destruct (core x); [left|right]; congruence.
    * intros x Hx Hn. destruct (B7 x Hx) as (y & Hy); [destruct (core x); congruence|].
      exists y. apply Hh. auto. }
  split; auto.
  destruct H5 as [(Hd & _)|(_ & Hok)]; [contradiction|]. pose proof Hok as [K1 K2 K3 K4 K5 K6 K7 K8 K9 K10 K11 K12 K13 K14 K15].
  split; [intros x y Hx Hxy; apply (K8 x y Hx Hxy)|].
  split. { intros Hs. split; [apply K9; auto|]. intros x y Hx Hv. destruct (K10 Hs x y Hx Hv) as (E1 & x' & y' & E2 & E3 & E4 & E5).
           split; auto. exists x', y'. split; auto. split; auto. split; auto. apply Hh. auto. }
  split. { intros x Hx. destruct (K11 x Hx) as (y & E1 & E2 & E3). exists y. split.
           - revert E1. apply reaches_mono. intros a b (E4 & E5). split; auto. apply Hh. auto.
           - split; auto. destruct E3 as [E3|(z & E3 & E4)]; auto. right. exists z. split; auto. apply Hh. auto. }
  split.
  - intros f H0 Hr k Hk.
    assert (Hsm : forall i j, k <= i -> i <= j -> rp same (f i) (f j)).
    { intros i j Hi Hij. induction Hij; auto. eapply same_trans; [exact IHHij|]. apply Hk. lia. }
    set (M := k + N).
    assert (Hcore : forall j, N <= j -> core (f j) = true) by (intros j Hj; apply C1, Hrun; auto).
    destruct (long_run_cycle St eq_dec univ Hall (stutter St s lo) (fun i => f (M + i))) as (i & Hi & Hci).
    { intros i _. replace (M + S i) with (S (M + i)) by lia. split; [apply Hr|]. split; [apply Hk; lia|].
      apply B2, B1, Hcore. lia. }
    assert (Hno : forall z, ~ vis (f (M + i)) z).
    { apply (K12 Hp (f (M + i)) Hci). apply Hrun; auto. lia. }
    intros j Hj z Hz. destruct (le_lt_dec j (M + i)) as [Hle|Hlt].
    + apply (Hno z). eapply vis_same; [exact same_sym|exact same_trans| |exact Hz]. apply Hsm; auto.
    + apply (Hno z). eapply vis_same; [exact same_sym|exact same_trans| |exact Hz]. apply same_sym, Hsm; lia.
  - intros Hs. destruct (K13 Hs) as (E1 & E2). split.
    + intros x Hx. destruct (core x) eqn:Ec.
      * destruct (E2 x Ec) as (y & Hy & _). exists y. apply Hh. auto.
      * destruct (B7 x Hx Ec) as (y & Hy). exists y. apply Hh. auto.
    + intros f H0 Hr. exists N. intros i Hi.
      assert (Hsi : scc (f i) = true) by (apply Hrun; auto).
      assert (Hns : ~ rp same (f i) (f (S i))).
      { intros X. apply (E1 (f i) (f (S i)) Hsi). split; [apply Hr|]. split; auto. }
      split; auto. destruct (K8 (f i) (f (S i)) (C1 _ Hsi) (Hr i)) as (_ & Hal).
      unfold allowed in Hal. destruct (style St s); tauto.
Qed.

(** Exactness for systems without shadow variables. *)
Theorem direct_exact : probabilistic St s = false -> direct St s -> max_nlayers opt = 0 ->
  (forall x y, lo x y = hi x y) ->
  ((exists H n m, check = Some (Accepted St H n m)) <->
   (exists x, IA x) /\ (forall x, Ab x = true -> ~ rp lo x x) /\ closed St (rp lo) (P Ab) /\
   converges St (rp lo) (P Ab) IA /\ direct_ok St s lo hi /\
   (behav St s = FutureSilent -> forall x, Ab x = true -> ~ on_cycle St (rp lo) x)).
Proof.
  intros Hp Hd Hm Heq.
  assert (Hh : forall x y, rp hi x y <-> rp lo x y) by (intros x y; unfold ReachProofs.rp; rewrite Heq; tauto).
  split.
  - intros (H & n & m & Hc). pose proof Hc as Hacc. apply verdict_known in Hc. cbn [verdict_ok] in Hc.
    destruct Hc as (Hne & Hsl & HA & _ & scc & core & nl & rn & H1 & H2 & H3 & H4 & H5 & H6 & H7 & H8).
    destruct (accepted_np H n m Hp Hacc) as (core' & Hb & _ & Hcv & Hsil).
    split; auto. split; auto. split; auto. split; [|split; auto].
    + destruct (Hcv Heq) as ((Hc1 & Hc2) & _). destruct Hb as (B1 & B2 & _). split.
      * intros f F0 Fr. destruct (Hc1 f F0 Fr) as (k & Hk). exists k. auto.
      * intros f k F0 Fr Fd. apply B2, B1. apply (Hc2 f k); auto.
    + destruct H5 as [(_ & _ & _ & H5)|(X & _)]; [auto|contradiction].
  - intros (Hne & Hsl & HA & Hcv & Hok & Hsil).
    destruct (stab_spec St eq_dec univ Hall fuel Hf s opt pcs lo hi same_refl same_sym same_trans Hpcs) as (v & E & Hv).
    destruct v; cbn [verdict_ok] in Hv.
    + destruct Hne as (x & Hx). destruct (Hv x Hx).
    + destruct Hv as (_ & x & Hx & Hxx). destruct (Hsl x Hx Hxx).
    + destruct Hv as (x & y & Hx & Hxy & Hy). pose proof (HA x y Hx Hxy). cbn beta in *. congruence.
    + destruct Hv as (x & Hx & Hi & Hdd). destruct Hcv as (_ & Hcv).
      destruct (Hcv (fun _ => x) 0); [exact Hx|intros i Hi'; lia| |congruence].
      intros y Hy. apply (Hdd y). apply Hh. auto.
    + destruct Hv. lia.
    + destruct (livelock_np Hp E) as (_ & _ & X). exfalso. apply (X IA); auto. apply Hok.
    + destruct Hv as (_ & scc & nl & Hcyc & Hl & [(Hs & x & Hx)|[(_ & X)|X]]); try contradiction.
      destruct (proj1 Hcyc Hp) as [(L0 & _)|(k & _ & _ & _ & _ & Hb)]; [lia|].
      apply Hb in Hx. destruct Hx as (c1 & _ & A1 & A2 & _). destruct (Hsil Hs c1 A1 A2).
    + contradiction.
    + destruct Hv as ((x & y & X) & _). rewrite Heq in X. contradiction.
    + contradiction.
    + eauto.
Qed.

Theorem direct_exact_prob : probabilistic St s = true -> direct St s ->
  (forall x y, lo x y = hi x y) -> behav St s <> FutureSilent ->
  ((exists H n m, check = Some (Accepted St H n m)) <->
   (exists x, IA x) /\ closed St (rp lo) (P Ab) /\ direct_ok St s lo hi /\
   forall x, Ab x = true -> attracted St procs IA N x).
Proof.
  intros Hp Hd Heq Hns.
  assert (Hh : forall x y, rp hi x y <-> rp lo x y) by (intros x y; unfold ReachProofs.rp; rewrite Heq; tauto).
  assert (Hatt : forall (C D : St -> Prop), (forall x, C x -> D x) -> forall k x,
    attracted St procs C k x -> attracted St procs D k x).
  { intros C D HCD. induction k; intros x [X|X].
    - left. auto.
    - destruct X.
    - left. auto.
    - destruct X as (X1 & X2). right. split; auto. intros Q HQ Hm. destruct (X2 Q HQ Hm) as (t & Ht & X3). eauto. }
  split.
  - intros (H & n & m & Hc). pose proof Hc as Hacc. apply verdict_known in Hc. cbn [verdict_ok] in Hc.
    destruct Hc as (Hne & Hsl & HA & _ & scc & core & nl & rn & H1 & H2 & H3 & H4 & H5 & H6 & H7 & H8).
    split; auto. split; auto. split; [destruct H5 as [(_ & _ & _ & H5)|(X & _)]; [auto|contradiction]|].
    destruct (accepted_prob H n m Hp Hacc Heq) as (core' & (B1 & B2 & _) & Hat).
    intros x Hx. apply (Hatt (P core')); auto.
  - intros (Hne & HA & Hok & Hat).
    destruct (stab_spec St eq_dec univ Hall fuel Hf s opt pcs lo hi same_refl same_sym same_trans Hpcs) as (v & E & Hv).
    destruct v; cbn [verdict_ok] in Hv.
    + destruct Hne as (x & Hx). destruct (Hv x Hx).
    + destruct Hv. congruence.
    + destruct Hv as (x & y & Hx & Hxy & Hy). pose proof (HA x y Hx Hxy). cbn beta in *. congruence.
    + destruct Hv as (x & Hx & Hi & Hdd). exfalso.
      assert (X : forall k, attracted St procs IA k x -> False).
      { intros k Hk. assert (Y : IA x \/ exists Q, In Q procs /\ can_move St Q x) by (destruct k; destruct Hk as [Hk|Hk]; tauto).
        destruct Y as [(Y & _)|(Q & HQ & t & Ht)]; [congruence|]. apply in_map_iff in HQ. destruct HQ as (pc & <- & Hpc).
        apply (Hdd t). apply Hh. apply Hpcs; eauto. }
      exact (X _ (Hat x Hx)).
    + destruct Hv as (_ & X & _). congruence.
    + destruct (livelock_prob Hp E) as (x & Hx & X). exfalso. apply (X IA) with (k := N); auto. apply Hok.
    + destruct Hv as (_ & scc & nl & Hcyc & Hl & [(Hs & _)|[(_ & X)|X]]); contradiction.
    + contradiction.
    + destruct Hv as ((x & y & X) & _). rewrite Heq in X. contradiction.
    + contradiction.
    + eauto.
Qed.
End Acc.
End Sem.
