(** The -uniring check is exact for rings of self-disabling processes; what the reachability check answers. *)
From Coq Require Import List Arith Bool Lia.
From Verif Require Import FinLib Radix FmlaModel FmlaSpec FmlaProofs FmlaProofs2 FmlaProofs4 ReachModel ReachSpec ReachProofs CmdProofs2
  UniringModel UniringSpec UniringProofs UniringProofs2 UniringProofs3.
Import ListNotations.

Section P.
Variable ds : list nat.
Hypothesis INH : inhabited ds.
Variable ps : list proc.
Hypothesis OK : Forall (proc_ok ds) ps.
Notation ok := (FmlaSpec.ok ds).
Notation proc_step := (FmlaSpec.proc_step ds).
Notation can_act := (UniringSpec.can_act ds).
Notation system_step := (UniringSpec.system_step ds ps).
Notation swept := (UniringSpec.swept ds).
Notation St := (CmdProofs2.St ds).
Notation val := (CmdProofs2.val ds).
Notation univ := (CmdProofs2.univ ds).
Notation R := (rp St (UniringProofs3.r ds ps)).
Notation n := (length ds).

Definition stepi (i : nat) (s t : list nat) : Prop := ok s /\ ok t /\ exists p, nth_error ps i = Some p /\ proc_step p s t.
Definition enb (i : nat) (s : list nat) : bool :=
  okb ds s && match nth_error ps i with Some p => eval (pre_PFmla ds (xn p)) (join s s s) | None => false end.
Lemma nth_in : forall i p, nth_error ps i = Some p -> In p ps.
Proof. intros i p. apply nth_error_In. Qed.
Lemma enb_en : forall i s, enb i s = true <-> en _ stepi i s.
Proof.
  intros i s. unfold enb, en, stepi. rewrite andb_true_iff, okb_ok. split.
  - intros (O & H). destruct (nth_error ps i) as [p|] eqn:E; [|discriminate].
    apply (can_act_pre ds p s (in_ok ds ps OK p (nth_in i p E)) O) in H. destruct H as (t & T & H). exists t. split; [auto|]. split; [auto|]. eauto.
  - intros (t & O & T & p & E & H). split; auto. rewrite E. apply (can_act_pre ds p s (in_ok ds ps OK p (nth_in i p E)) O). exists t; auto.
Qed.
Lemma step_i : forall s t, system_step s t <-> exists i, stepi i s t.
Proof.
  intros s t. unfold UniringSpec.system_step, stepi. split.
  - intros (S & T & p & I & H). apply In_nth_error in I. destruct I as (i & I). exists i. eauto 6.
  - intros (i & S & T & p & E & H). split; [auto|]. split; [auto|]. exists p. split; auto. eapply nth_in; eauto.
Qed.
Lemma steps_path : forall m s t, steps _ system_step m s t <-> exists w, length w = m /\ path _ stepi s w t.
Proof.
  induction m as [|m IH]; intros s t.
  - rewrite steps_0. split.
    + intros ->. exists []. split; auto. constructor.
    + intros (w & L & P). destruct w; [|discriminate]. inversion P; auto.
  - rewrite steps_S. split.
    + intros (u & H & K). apply step_i in H. destruct H as (i & H). apply IH in K. destruct K as (w & L & P). exists (i :: w). split; [cbn; auto|].
      econstructor; eauto.
    + intros (w & L & P). destruct w as [|i w]; [discriminate|]. inversion P; subst. exists u. split; [apply step_i; eauto|]. apply IH. exists w. split; auto.
Qed.
Lemma path_reaches : forall s w t, path _ stepi s w t -> reaches _ system_step s t.
Proof. intros s w t H. exists (length w). apply steps_path. eauto. Qed.

Hypothesis RING : ring ds ps.
Hypothesis SD : self_disabling ds ps.
Lemma bound : forall i s t, stepi i s t -> i < n.
Proof. intros i s t (_ & _ & p & E & _). destruct RING as (<- & _). apply nth_error_Some. congruence. Qed.
Lemma quiet : forall i s t, stepi i s t -> ~ en _ stepi i t.
Proof.
  intros i s t (S & T & p & E & H) (u & _ & U & p' & E' & K). rewrite E in E'. injection E' as <-.
  apply (SD p s t (nth_in i p E) S T H). exists u; auto.
Qed.
(** A step of process i in another state that looks the same to it *)
Definition put (s : list nat) (i v : nat) : list nat := firstn i s ++ v :: skipn (S i) s.
Lemma put_nth : forall s i v k, i < length s -> nth k (put s i v) 0 = if k =? i then v else nth k s 0.
Proof.
  intros s i v. revert s. unfold put. induction i as [|i IH]; intros s k L; destruct s as [|x s]; cbn in L; try lia.
  - destruct k; auto.
  - destruct k as [|k]; auto. apply (IH s k). lia.
Qed.
Lemma put_length : forall s i v, i < length s -> length (put s i v) = length s.
Proof. intros s i v L. unfold put. rewrite app_length, firstn_length. cbn [length]. rewrite skipn_length. lia. Qed.
Lemma ok_len : forall s, ok s -> length s = n.
Proof. intros s H. apply (ok_length ds); auto. Qed.
Lemma ok_iff : forall s, ok s <-> length s = n /\ forall k, k < n -> nth k s 0 < nth k ds 0.
Proof.
  clear. intros s. unfold FmlaSpec.ok. split.
  - intros H. split; [induction H; cbn; auto|]. induction H as [|x d s ds H F IH]; intros k K; cbn in K; [lia|].
    destruct k as [|k]; cbn; auto. apply IH. lia.
  - revert s. induction ds as [|d l IH]; intros s (L & H).
    + destruct s; [constructor|discriminate].
    + destruct s as [|x s]; [discriminate|]. cbn in L. constructor; [apply (H 0); cbn; lia|]. apply IH. split; [lia|]. intros k K. apply (H (S k)). cbn. lia.
Qed.
Lemma put_ok : forall s i t, ok s -> ok t -> i < n -> ok (put s i (nth i t 0)).
Proof.
  intros s i t S T I. apply ok_iff in S, T. destruct S as (L & S), T as (_ & T). apply ok_iff.
  rewrite put_length by lia. split; auto. intros k K. rewrite put_nth by lia. destruct (Nat.eqb_spec k i) as [->|NE]; auto.
Qed.
Lemma put_off : forall s i v, i < length s -> agree_off ds [i] s (put s i v).
Proof.
  intros s i v I k K NI. rewrite put_nth by auto. destruct (Nat.eqb_spec k i) as [->|NE]; auto. destruct NI. left; auto.
Qed.
Lemma writes : forall i s t, stepi i s t -> agree_off ds [i] s t.
Proof.
  intros i s t (_ & _ & p & E & (_ & H)). destruct RING as (_ & RG). destruct (RG i p E) as (W & _). rewrite W in H. auto.
Qed.
Lemma same_else : forall i s t k, stepi i s t -> k < n -> k <> i -> nth k s 0 = nth k t 0.
Proof. intros i s t k H K NE. apply (writes i s t H); auto. intros [E|[]]; auto. Qed.
Lemma befb : forall i, i < n -> bef n i < n.
Proof. intros i I. unfold bef. destruct i; lia. Qed.
Lemma moved : forall i s t s' t', stepi i s t -> ok s' -> ok t' -> nth i s 0 = nth i s' 0 -> nth (bef n i) s 0 = nth (bef n i) s' 0 ->
  nth i t 0 = nth i t' 0 -> agree_off ds [i] s' t' -> stepi i s' t'.
Proof.
  intros i s t s' t' (S & T & p & E & H) S' T' E1 E2 E3 AG. split; [auto|]. split; [auto|]. exists p. split; auto.
  destruct RING as (_ & RG). destruct (RG i p E) as (_ & L). apply (L s t s' t'); auto.
Qed.
Lemma apart1 : forall i j s t, stepi j s t -> i <> j -> bef n i <> j -> en _ stepi i s -> en _ stepi i t.
Proof.
  intros i j s t H NE NB (u & K). assert (IB := bound _ _ _ K). pose proof H as (S & T & _). pose proof K as (_ & U & _).
  exists (put t i (nth i u 0)). apply (moved i s u); auto using put_ok.
  - apply (same_else j); auto.
  - apply (same_else j); auto using befb.
  - rewrite put_nth by (rewrite ok_len; auto). rewrite Nat.eqb_refl. auto.
  - apply put_off. rewrite ok_len; auto.
Qed.
Lemma apart2 : forall i j s t, stepi j s t -> i <> j -> bef n i <> j -> en _ stepi i t -> en _ stepi i s.
Proof.
  intros i j s t H NE NB (u & K). assert (IB := bound _ _ _ K). pose proof H as (S & T & _). pose proof K as (_ & U & _).
  exists (put s i (nth i u 0)). apply (moved i t u); auto using put_ok.
  - symmetry. apply (same_else j); auto.
  - symmetry. apply (same_else j); auto using befb.
  - rewrite put_nth by (rewrite ok_len; auto). rewrite Nat.eqb_refl. auto.
  - apply put_off. rewrite ok_len; auto.
Qed.
Lemma apart : forall i j s t, stepi j s t -> i <> j -> bef n i <> j -> (en _ stepi i s <-> en _ stepi i t).
Proof. intros. split; [apply (apart1 i j)|apply (apart2 i j)]; auto. Qed.
Lemma swap : forall i j s t u, stepi j s t -> stepi i t u -> i <> j -> bef n i <> j -> bef n j <> i ->
  exists v, stepi i s v /\ stepi j v u.
Proof.
  intros i j s t u H K NE B1 B2. assert (IB := bound _ _ _ K). assert (JB := bound _ _ _ H). pose proof H as (S & T & _). pose proof K as (_ & U & _).
  assert (LS : i < length s) by (rewrite ok_len; auto).
  exists (put s i (nth i u 0)). split.
  - apply (moved i t u); auto using put_ok.
    + symmetry. apply (same_else j); auto.
    + symmetry. apply (same_else j); auto using befb.
    + rewrite put_nth by auto. rewrite Nat.eqb_refl. auto.
    + apply put_off; auto.
  - apply (moved j s t); auto using put_ok.
    + rewrite put_nth by auto. destruct (Nat.eqb_spec j i); congruence.
    + rewrite put_nth by auto. destruct (Nat.eqb_spec (bef n j) i); congruence.
    + apply (same_else i t u); auto.
    + intros k KB NK. assert (NJ : k <> j) by (intros ->; apply NK; left; auto). rewrite put_nth by auto.
      destruct (Nat.eqb_spec k i) as [->|NI]; auto. rewrite (same_else j s t k H KB NJ). apply (same_else i t u); auto.
Qed.
Lemma down_swept : forall m, m <= length ps -> forall s t, ok s -> down _ stepi m s t -> swept (rev (firstn m ps)) s t.
Proof.
  induction m as [|i IH]; intros M s t O H; [exact H|]. cbn [down] in H. destruct H as (u & TU & H).
  destruct (nth_error ps i) as [p|] eqn:E; [|apply nth_error_None in E; lia].
  assert (FS : firstn (S i) ps = firstn i ps ++ [p]).
  { clear - E. revert i E. induction ps as [|q l IH]; intros [|i] E; try discriminate; [injection E as ->; auto|].
    change (firstn (S (S i)) (q :: l)) with (q :: firstn (S i) l). rewrite (IH i E). auto. }
  rewrite FS, rev_app_distr. cbn [rev app UniringSpec.swept].
  destruct TU as [ST|(-> & NE)].
  - pose proof ST as (_ & U & p' & E' & ST'). rewrite E in E'. injection E' as <-. exists u. split; [auto|]. split; [left; auto|]. apply IH; auto. lia.
  - exists s. split; [auto|]. split; [|apply IH; auto; lia]. right. split; auto. intros (v & V & K). apply NE. exists v. split; [auto|]. split; [auto|]. eauto.
Qed.

Definition up (d : St) (s : list nat) : St := match bool_dec (okb ds s) true with left H => exist _ s H | right _ => d end.
Lemma up_val : forall d s, ok s -> val (up d s) = s.
Proof. intros d s O. unfold up. destruct (bool_dec (okb ds s) true) as [H|H]; auto. destruct H. apply okb_ok; auto. Qed.

Lemma ring_cycle : forall s, ok s -> cyclic ds ps s ->
  exists c, on_cycle St R c /\ reaches _ system_step s (val c) /\ reaches _ system_step (val c) s.
Proof.
  intros s O (m & H). apply steps_path in H. destruct H as (w & L & P).
  assert (NE : w <> []) by (intros ->; discriminate).
  assert (NP : 0 < n).
  { destruct w as [|i w]; [congruence|]. inversion P as [|? ? ? ? ? ST]; subst. pose proof (bound _ _ _ ST). lia. }
  destruct (start_over _ n stepi enb enb_en bound quiet apart NP s w P NE) as (y & a & b & A & B & CY & CN & D).
  assert (LY : live _ n stepi enb y y) by (exists []; split; [constructor|auto]).
  destruct (rounds _ n stepi enb enb_en bound quiet apart swap y (b ++ a) CY CN NP y LY D (length univ)) as (f & F0 & FR & FL).
  assert (FE : forall i, i <= length univ -> exists j, en _ stepi j (f i)).
  { intros i I. destruct (FL i I) as (LI & _). eapply live_en; eauto. }
  assert (FO : forall i, i <= length univ -> ok (f i)).
  { intros i I. destruct (FE i I) as (j & t & S & _). auto. }
  destruct (lift ds s O) as (d & DV).
  assert (RUN : run St R (fun i => up d (f i)) (length univ)).
  { intros i I. apply (r_spec ds ps OK). rewrite !up_val by (apply FO; lia). split.
    - destruct (FE i ltac:(lia)) as (j & t & S & T & p & E & K). exists p. split; [eapply nth_in; eauto|exists t; auto].
    - pose proof (down_swept (length ps) (le_n _) (f i) (f (S i)) (FO i ltac:(lia))) as W. rewrite firstn_all in W. apply W.
      destruct RING as (EQ & _). rewrite EQ. apply FR. auto. }
  destruct (long_run_cycle St (CmdProofs2.eq_dec ds) univ (CmdProofs2.all_states ds) R (fun i => up d (f i)) RUN) as (i & I & C).
  exists (up d (f i)). split; auto. rewrite up_val by (apply FO; auto). split.
  - eapply reaches_trans; [eapply path_reaches; exact A|].
    assert (Q : reaches St R (up d (f 0)) (up d (f i))).
    { exists i. exists (fun k => up d (f k)). split; auto. split; auto. intros k K. apply RUN. lia. }
    apply (r_reaches ds ps OK) in Q. rewrite !up_val in Q by (apply FO; lia). rewrite F0 in Q. auto.
  - destruct (FL i I) as ((w' & PW & _) & _). eapply reaches_trans; eapply path_reaches; eauto.
Qed.

Section Assumed.
Variable assumed : option fmla.
Hypothesis CL : closed_option ds ps assumed.
Notation A := (in_set assumed).
Lemma ring_circling : forall s, ok s -> A s -> cyclic ds ps s ->
  exists c, circling ds ps assumed c /\ reaches _ system_step (val c) s.
Proof.
  intros s O HA C. destruct (ring_cycle s O C) as (c & CC & R1 & R2). exists c. split; auto. split.
  - destruct (cycle_next _ _ c CC) as (t & T & _). apply (r_spec ds ps OK) in T. tauto.
  - exists c. split; [eapply (A_reaches ds ps assumed CL s); eauto|]. split; auto. apply reaches_refl.
Qed.
Lemma ring_result : forall k, settled_at ds ps assumed k -> forall I : list nat -> Prop,
  (forall s t, I s -> system_step s t -> I t) ->
  ((forall s, ok s -> holds (result ds ps assumed k) s -> I s) <-> (forall s, ok s -> A s -> cyclic ds ps s -> I s)).
Proof.
  intros k SK I IC. assert (IR : forall s t, I s -> reaches _ system_step s t -> I t).
  { intros s t H K. apply (closed_reaches _ system_step I IC s t H K). }
  split; intros H s O.
  - intros HA C. destruct (ring_circling s O HA C) as (c & CI & RC). apply (IR (val c)); auto. apply H; [apply val_ok|].
    apply (result_holds ds ps OK assumed CL k SK). auto.
  - intros K. destruct (result_real ds ps OK assumed CL k SK s O K) as (c & CO & CA & CC & CR). apply (IR c); auto.
Qed.
Lemma ring_found : forall k, settled_at ds ps assumed k ->
  (sat_ck ds (result ds ps assumed k) = true <-> exists s, ok s /\ A s /\ cyclic ds ps s).
Proof.
  intros k SK. rewrite (sat_state ds INH); [|apply (result_static ds ps OK assumed CL)]. split.
  - intros (s & O & H). destruct (result_real ds ps OK assumed CL k SK s O H) as (c & CO & CA & CC & _). exists c. auto.
  - intros (s & O & HA & C). destruct (ring_circling s O HA C) as (c & CI & _). exists (val c). split; [apply val_ok|].
    apply (result_holds ds ps OK assumed CL k SK). auto.
Qed.
End Assumed.
End P.

(** The reachability check *)
Section Weak.
Variable ds : list nat.
Hypothesis INH : inhabited ds.
Variable ps : list proc.
Hypothesis OK : Forall (proc_ok ds) ps.
Hypothesis SD : self_disabling ds ps.
Notation ok := (FmlaSpec.ok ds).
Variables inv assumed : fmla.
Hypothesis SI : state_fmla ds inv.
Hypothesis SA : state_fmla ds assumed.
Notation can_act := (UniringSpec.can_act ds).

Lemma minus_static : forall qs x, Forall (proc_ok ds) qs -> state_fmla ds x ->
  state_fmla ds (fold_left (fun x p => nimp_PFmla x (pre_PFmla ds (xn p))) qs x).
Proof.
  induction qs as [|p qs IH]; intros x F X; auto. inversion F; subst. cbn [fold_left]. apply IH; auto. apply nimp_static; auto. apply pre_static; auto.
Qed.
Lemma minus_holds : forall qs x s, Forall (proc_ok ds) qs -> ok s ->
  (holds (fold_left (fun x p => nimp_PFmla x (pre_PFmla ds (xn p))) qs x) s <-> holds x s /\ forall p, In p qs -> ~ can_act p s).
Proof.
  induction qs as [|p qs IH]; intros x s F O; [cbn; tauto|]. inversion F; subst. cbn [fold_left]. rewrite IH by auto.
  rewrite holds_nimp, (can_act_pre ds p s) by auto. split.
  - intros ((H & K) & L). split; auto. intros q [<-|Q]; auto.
  - intros (H & K). split; [split; auto; apply K; left; auto|]. intros q Q. apply K. right; auto.
Qed.
Lemma back_empty : forall p X, proc_ok ds p -> state_fmla ds X ->
  (forall s t, ok s -> ok t -> proc_step ds p s t -> ~ holds X t) -> sat_ck ds (back ds inv X p) = false.
Proof.
  intros p X P SX H. destruct (sat_ck ds (back ds inv X p)) eqn:E; auto. apply (sat_iff ds INH) in E.
  destruct E as (a & i & s & A & I & O & E). unfold back in E. rewrite !eval_nimp in E. apply andb_true_iff in E. destruct E as (E & _).
  apply andb_true_iff in E. destruct E as (E & _).
  assert (K : holds (pre2_PFmla ds (xn p) X (wvbls p)) s) by (apply (pre2_static ds p X P SX a i s s s); auto).
  apply (pre2_one ds p X s P O SX) in K. destruct K as (t & T & ST & HX). destruct (H s t O T ST HX).
Qed.
Definition no_deadlock : Prop := forall s, ok s -> holds assumed s -> ~ holds inv s -> exists t, system_step ds ps s t.
Lemma weak_answer : ps <> [] -> forall fuel, 2 <= fuel -> exists b n,
  uniring_weak_convergence_ck ds ps fuel inv assumed = Some (b, n) /\ (b = true <-> no_deadlock) /\ 1 <= n <= 2.
Proof.
  intros NE fuel FU. unfold uniring_weak_convergence_ck.
  assert (SX : state_fmla ds (nimp_PFmla assumed inv)) by (apply nimp_static; auto).
  assert (DL : subseteq_ck ds (nimp_PFmla assumed inv) (xpre ds ps) = true <-> no_deadlock).
  { rewrite (subset_state ds INH); [|auto|apply xpre_static; auto]. unfold no_deadlock. split.
    - intros H s O HA HI. apply (enabled_step ds ps s O), (xpre_enabled ds ps OK s O), H; auto. apply holds_nimp. auto.
    - intros H s O K. apply holds_nimp in K. apply (xpre_enabled ds ps OK s O), (enabled_step ds ps s O). apply H; tauto. }
  destruct (subseteq_ck ds (nimp_PFmla assumed inv) (xpre ds ps)) eqn:SUB; cbn [negb].
  2: { exists false, 1. split; [auto|]. split; [exact DL|lia]. }
  assert (ND : no_deadlock) by (apply DL; auto).
  destruct (exists_last NE) as (qs & p & E).
  assert (FQ : firstn (length ps - 1) ps = qs).
  { rewrite E, app_length. cbn [length]. replace (length qs + 1 - 1) with (length qs) by lia. rewrite firstn_app, firstn_all, Nat.sub_diag. cbn. apply app_nil_r. }
  rewrite FQ. assert (P : proc_ok ds p) by (apply (in_ok ds ps OK); rewrite E; apply in_or_app; right; left; auto).
  assert (Q : Forall (proc_ok ds) qs) by (rewrite E in OK; apply Forall_app in OK; tauto).
  set (X := fold_left _ qs _). assert (XS : state_fmla ds X) by (apply minus_static; auto).
  assert (B : sat_ck ds (back ds inv X p) = false).
  { apply back_empty; auto. intros s t O T ST HX. apply minus_holds in HX; auto. destruct HX as (HX & HQ). apply holds_nimp in HX.
    destruct (ND t T) as (u & _ & U & q & IQ & SQ); try tauto. rewrite E in IQ. apply in_app_or in IQ. destruct IQ as [IQ|[<-|[]]].
    - apply (HQ q IQ). exists u; auto.
    - apply (SD p s t) in ST; auto; [|rewrite E; apply in_or_app; right; left; auto]. apply ST. exists u; auto. }
  assert (RV : rev ps = p :: rev qs) by (rewrite E, rev_app_distr; auto).
  destruct fuel as [|[|fuel]]; try lia. cbn [back_loop]. rewrite RV. cbn [back_sweep].
  destruct (sat_ck ds X) eqn:SATX; cbn [negb].
  2: { exists true, 1. split; [auto|]. split; [tauto|lia]. }
  destruct (rev qs) as [|q rq] eqn:RQ; cbn [back_sweep].
  - assert (EQ : equiv_ck ds (back ds inv X p) X = false).
    { destruct (equiv_ck ds (back ds inv X p) X) eqn:EQ; auto. rewrite (equiv_iff ds INH) in EQ. apply (sat_iff ds INH) in SATX.
      destruct SATX as (a & i & s & A & I & O & K). rewrite <- (EQ a i s A I O) in K.
      assert (SATB : sat_ck ds (back ds inv X p) = true) by (apply (sat_iff ds INH); exists a, i, s; auto). congruence. }
    rewrite EQ. rewrite B. cbn [negb]. exists true, 2. split; [auto|]. split; [tauto|lia].
  - rewrite B. cbn [negb]. exists true, 2. split; [auto|]. split; [tauto|lia].
Qed.
End Weak.
