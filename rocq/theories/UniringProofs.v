(** The meaning of a sweep through the processes. *)
From Coq Require Import List Arith Bool Lia.
From Verif Require Import FinLib FmlaModel FmlaSpec FmlaProofs FmlaProofs2 FmlaProofs3 FmlaProofs4 CmdProofs2 UniringModel UniringSpec.
Import ListNotations.

Section P.
Variable ds : list nat.
Hypothesis INH : inhabited ds.
Notation ok := (FmlaSpec.ok ds).
Notation proc_ok := (FmlaSpec.proc_ok ds).
Notation proc_step := (FmlaSpec.proc_step ds).
Notation can_act := (UniringSpec.can_act ds).

Notation turned := (UniringSpec.turned ds).
Notation swept := (UniringSpec.swept ds).

Lemma iden : forall a, iden_PFmla a = a.
Proof. intros []; auto. Qed.
Lemma xpre_one : forall p, xpre ds [p] = pre_PFmla ds (xn p).
Proof. intros p. cbn. apply iden. Qed.
Lemma xpre1_one : forall p Q, xpre1 ds [p] Q = pre2_PFmla ds (xn p) Q (wvbls p).
Proof. intros p Q. cbn. apply iden. Qed.
Lemma ximg1_one : forall p Q, ximg1 ds [p] Q = img2_PFmla ds (xn p) Q (wvbls p).
Proof. intros p Q. cbn. apply iden. Qed.
Lemma one : forall p, proc_ok p -> Forall proc_ok [p].
Proof. intros p H. constructor; auto. Qed.

Lemma can_act_pre : forall p s, proc_ok p -> ok s -> (holds (pre_PFmla ds (xn p)) s <-> can_act p s).
Proof.
  intros p s P S. rewrite <- xpre_one, (xpre_state ds [p] s (one p P) S). split.
  - intros (q & t & [<-|[]] & T & H). exists t; auto.
  - intros (t & T & H). exists p, t. split; [left; auto|auto].
Qed.
Lemma can_act_dec : forall p s, proc_ok p -> ok s -> can_act p s \/ ~ can_act p s.
Proof.
  intros p s P S. rewrite <- (can_act_pre p s P S). unfold holds, meaning. destruct (eval _ _); [left|right]; auto; discriminate.
Qed.
Lemma img2_one : forall p Q t, proc_ok p -> ok t -> state_fmla ds Q -> Q <> Cst true ->
  (holds (img2_PFmla ds (xn p) Q (wvbls p)) t <-> exists s, ok s /\ proc_step p s t /\ holds Q s).
Proof.
  intros p Q t P T SQ NT. rewrite <- ximg1_one, (ximg1_state ds [p] Q t (one p P) T SQ NT). split.
  - intros (q & s & [<-|[]] & S & H). exists s; auto.
  - intros (s & S & H). exists p, s. split; [left; auto|auto].
Qed.
Lemma pre2_one : forall p Q s, proc_ok p -> ok s -> state_fmla ds Q ->
  (holds (pre2_PFmla ds (xn p) Q (wvbls p)) s <-> exists t, ok t /\ proc_step p s t /\ holds Q t).
Proof.
  intros p Q s P S SQ. rewrite <- xpre1_one, (xpre1_state ds [p] Q s (one p P) S SQ). split.
  - intros (q & t & [<-|[]] & T & H). exists t; auto.
  - intros (t & T & H). exists p, t. split; [left; auto|auto].
Qed.

Lemma img2_static : forall p Q, proc_ok p -> state_fmla ds Q -> Q <> Cst true -> state_fmla ds (img2_PFmla ds (xn p) Q (wvbls p)).
Proof.
  intros p Q (W & TX & WO & _) SQ NT. apply state_of_eval. intros a i t A I T. apply iff_eqb. rewrite !ev_img2 by auto.
  split; intros (s & S & O & H1 & H2); exists s; (split; [auto|]); (split; [auto|]); (split; [|auto]).
  - rewrite (over_self ds) by auto. rewrite (trans_eval ds _ TX t t s) by auto. rewrite (trans_eval ds _ TX) in H1 by (auto using over_ok).
    refine (proj1 (WO s _ t s S _ T S _) H1); auto using over_ok.
    intros k K. unfold wf_ids in W. rewrite Forall_forall in W. rewrite over_in by auto. auto.
  - rewrite (over_self ds) in H1 by auto. rewrite (trans_eval ds _ TX t t s) in H1 by auto. rewrite (trans_eval ds _ TX) by (auto using over_ok).
    refine (proj1 (WO s t _ s S T _ S _) H1); auto using over_ok.
    intros k K. unfold wf_ids in W. rewrite Forall_forall in W. rewrite over_in by auto. auto.
Qed.
Lemma pre2_static : forall p Q, proc_ok p -> state_fmla ds Q -> state_fmla ds (pre2_PFmla ds (xn p) Q (wvbls p)).
Proof.
  intros p Q (W & TX & WO & _) SQ. apply state_of_eval. intros a i t A I T. apply iff_eqb. rewrite !ev_pre2 by auto.
  split; intros (s & S & O & H1 & H2); exists s; (split; [auto|]); (split; [auto|]); (split; [|auto]).
  - rewrite (trans_eval ds _ TX) in H1 by (auto using over_ok).
    refine (proj1 (WO t _ _ t T _ _ T _) H1); auto using over_ok.
    intros k K. unfold wf_ids in W. rewrite Forall_forall in W. rewrite !over_in by auto. auto.
  - rewrite (trans_eval ds _ TX) by (auto using over_ok).
    refine (proj1 (WO t _ _ t T _ _ T _) H1); auto using over_ok.
    intros k K. unfold wf_ids in W. rewrite Forall_forall in W. rewrite !over_in by auto. auto.
Qed.
Lemma pre_static : forall p, proc_ok p -> state_fmla ds (pre_PFmla ds (xn p)).
Proof. intros p (_ & TX & _). apply pre_is_state; auto. Qed.
Lemma or_static : forall f g, state_fmla ds f -> state_fmla ds g -> state_fmla ds (or_PFmla f g).
Proof. intros f g F H. apply state_of_eval. intros a i p A I P. rewrite !eval_or. f_equal; apply (state_eval ds); auto. Qed.
Lemma nimp_static : forall f g, state_fmla ds f -> state_fmla ds g -> state_fmla ds (nimp_PFmla f g).
Proof. intros f g F H. apply state_of_eval. intros a i p A I P. rewrite !eval_nimp. f_equal; [|f_equal]; apply (state_eval ds); auto. Qed.
Lemma cst_static : forall b, state_fmla ds (Cst b).
Proof. intros b a i a' i' p _ _ _ _ _. unfold meaning. cbn. tauto. Qed.
Lemma ensure_static : forall f, state_fmla ds f -> state_fmla ds (ensure_ctx f).
Proof. intros [b|f] F; [|exact F]. intros a i a' i' p _ _ _ _ _. unfold meaning. cbn. tauto. Qed.
Lemma ensure_holds : forall f s, holds (ensure_ctx f) s <-> holds f s.
Proof. intros [b|f] s; cbn; tauto. Qed.

(** Never the constant true *)
Definition proper_set (f : fmla) : Prop := state_fmla ds f /\ f <> Cst true.
Lemma nimp_not_true : forall f g, f <> Cst true -> nimp_PFmla f g <> Cst true.
Proof. intros [[]|] [[]|] H; cbn; congruence. Qed.
Lemma or_not_true : forall f g, f <> Cst true -> g <> Cst true -> or_PFmla f g <> Cst true.
Proof. intros [[]|] [[]|] H K; cbn; congruence. Qed.
Lemma and_not_true : forall f g, f <> Cst true -> and_PFmla f g <> Cst true.
Proof. intros [[]|] [[]|] H; cbn; congruence. Qed.
Lemma img2_not_true : forall x f l, f <> Cst true -> img2_PFmla ds x f l <> Cst true.
Proof. intros [[]|] [[]|] l H; cbn; congruence. Qed.

Lemma turn_proper : forall p X, proc_ok p -> proper_set X -> proper_set (turn ds X p).
Proof.
  intros p X P (SX & NT). split.
  - apply or_static; [apply nimp_static; auto using pre_static|apply img2_static; auto].
  - apply or_not_true; [apply nimp_not_true; auto|apply img2_not_true; auto].
Qed.
Lemma holds_or : forall f g s, holds (or_PFmla f g) s <-> holds f s \/ holds g s.
Proof. intros. unfold holds, meaning. rewrite eval_or. apply orb_true_iff. Qed.
Lemma holds_and : forall f g s, holds (and_PFmla f g) s <-> holds f s /\ holds g s.
Proof. intros. unfold holds, meaning. rewrite eval_and. apply andb_true_iff. Qed.
Lemma holds_nimp : forall f g s, holds (nimp_PFmla f g) s <-> holds f s /\ ~ holds g s.
Proof. intros. unfold holds, meaning. rewrite eval_nimp, andb_true_iff, negb_true_iff, not_true_iff_false. tauto. Qed.
Lemma turn_holds : forall p X t, proc_ok p -> proper_set X -> ok t ->
  (holds (turn ds X p) t <-> exists s, ok s /\ holds X s /\ turned p s t).
Proof.
  intros p X t P (SX & NT) T. unfold turn. rewrite holds_or, holds_nimp, img2_one, can_act_pre by auto. split.
  - intros [(H1 & H2)|(s & S & H1 & H2)].
    + exists t. split; [auto|]. split; [auto|]. right; auto.
    + exists s. split; [auto|]. split; [auto|]. left; auto.
  - intros (s & S & H1 & [H2|(-> & H2)]); [right; eauto|left; auto].
Qed.

Lemma sweep_proper : forall qs X, Forall proc_ok qs -> proper_set X -> proper_set (fold_left (turn ds) qs X).
Proof. induction qs as [|p qs IH]; intros X F H; [auto|]. inversion F; subst. apply IH; auto using turn_proper. Qed.
Lemma sweep_holds : forall qs X t, Forall proc_ok qs -> proper_set X -> ok t ->
  (holds (fold_left (turn ds) qs X) t <-> exists s, ok s /\ holds X s /\ swept qs s t).
Proof.
  induction qs as [|p qs IH]; intros X t F H T.
  - cbn. split; [intros K; exists t; auto|intros (s & _ & K & <-); auto].
  - inversion F as [|? ? P F']; subst. cbn [fold_left swept]. rewrite IH by auto using turn_proper. split.
    + intros (u & U & K & W). apply turn_holds in K; auto. destruct K as (s & S & K & TU). exists s. split; [auto|]. split; [auto|]. eauto.
    + intros (s & S & K & u & U & TU & W). exists u. split; [auto|]. split; [|auto]. apply turn_holds; auto. eauto.
Qed.

(** The states that a sweep passes *)
Fixpoint passed (qs : list proc) (s t : list nat) : Prop :=
  match qs with
  | [] => False
  | p :: qs' => proc_step p s t \/ exists u, ok u /\ turned p s u /\ passed qs' u t
  end.
Lemma collect_proper : forall qs X Y, Forall proc_ok qs -> proper_set X -> proper_set Y -> proper_set (snd (fold_left (collect ds) qs (X, Y))).
Proof.
  induction qs as [|p qs IH]; intros X Y F HX HY; [auto|]. inversion F; subst. cbn [fold_left]. unfold collect at 2. cbn [fst snd].
  apply IH; auto using turn_proper. destruct HX as (SX & NX), HY as (SY & NY). split; [apply or_static; auto; apply img2_static; auto|apply or_not_true; auto using img2_not_true].
Qed.
Lemma collect_holds : forall qs X Y t, Forall proc_ok qs -> proper_set X -> proper_set Y -> ok t ->
  (holds (snd (fold_left (collect ds) qs (X, Y))) t <-> holds Y t \/ exists s, ok s /\ holds X s /\ passed qs s t).
Proof.
  induction qs as [|p qs IH]; intros X Y t F HX HY T.
  - cbn. split; [auto|intros [H|(s & _ & _ & [])]; auto].
  - inversion F as [|? ? P F']; subst. cbn [fold_left passed]. unfold collect at 2. cbn [fst snd].
    assert (SX := proj1 HX). assert (NX := proj2 HX). assert (SY := proj1 HY). assert (NY := proj2 HY).
    rewrite IH; auto using turn_proper.
    2: split; [apply or_static; auto; apply img2_static; auto|apply or_not_true; auto using img2_not_true].
    rewrite holds_or, img2_one by auto. split.
    + intros [[H|(s & S & H1 & H2)]|(u & U & H & K)]; [auto|right; exists s; auto|].
      apply turn_holds in H; auto. destruct H as (s & S & H & TU). right. exists s. split; [auto|]. split; [auto|]. right; eauto.
    + intros [H|(s & S & H & [K|(u & U & TU & K)])]; [auto|left; right; eauto|].
      right. exists u. split; [auto|]. split; [|auto]. apply turn_holds; auto. eauto.
Qed.
End P.
