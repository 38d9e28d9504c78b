(** What the sweeps of the -uniring check settle on. *)
From Coq Require Import List Arith Bool Lia.
From Verif Require Import FinLib Radix FmlaModel FmlaSpec FmlaProofs FmlaProofs2 FmlaProofs4 ReachModel ReachSpec ReachProofs CmdProofs2
  UniringModel UniringSpec UniringProofs.
Import ListNotations.

Section P.
Variable ds : list nat.
Hypothesis INH : inhabited ds.
Variable ps : list proc.
Hypothesis OK : Forall (proc_ok ds) ps.
Notation ok := (FmlaSpec.ok ds).
Notation proc_step := (FmlaSpec.proc_step ds).
Notation can_act := (UniringSpec.can_act ds).
Notation system_step := (UniringSpec.system_step ds ps).
Notation turned := (UniringSpec.turned ds).
Notation swept := (UniringSpec.swept ds).
Notation passed := (UniringProofs.passed ds).
Notation St := (CmdProofs2.St ds).
Notation val := (CmdProofs2.val ds).
Notation univ := (CmdProofs2.univ ds).
Notation all_states := (CmdProofs2.all_states ds).
Notation val_ok := (CmdProofs2.val_ok ds).
Notation pr := (CmdProofs2.pr ds).
Notation lift := (CmdProofs2.lift ds).
Let eq_dec := CmdProofs2.eq_dec ds.
Notation N := (length univ).

Definition enabled (s : list nat) : Prop := exists p, In p ps /\ can_act p s.
Lemma in_ok : forall p, In p ps -> proc_ok ds p.
Proof. intros p I. rewrite Forall_forall in OK. auto. Qed.
Lemma xpre_enabled : forall s, ok s -> (holds (xpre ds ps) s <-> enabled s).
Proof.
  intros s O. rewrite (xpre_state ds ps s OK O). unfold enabled, UniringSpec.can_act. split.
  - intros (p & t & I & T & H). eauto.
  - intros (p & I & t & T & H). eauto.
Qed.
Lemma enabled_dec : forall s, ok s -> enabled s \/ ~ enabled s.
Proof. intros s O. rewrite <- (xpre_enabled s O). unfold holds, meaning. destruct (eval _ _); [left|right]; auto; discriminate. Qed.
Lemma enabled_step : forall s, ok s -> (enabled s <-> exists t, system_step s t).
Proof.
  intros s O. split.
  - intros (p & I & t & T & H). exists t. split; [auto|]. split; [auto|]. eauto.
  - intros (t & _ & T & p & I & H). exists p. split; auto. exists t; auto.
Qed.
Lemma xpre_static : forall qs, Forall (proc_ok ds) qs -> state_fmla ds (xpre ds qs).
Proof.
  intros qs F. unfold xpre. assert (G : forall qs r, Forall (proc_ok ds) qs -> state_fmla ds r ->
    state_fmla ds (fold_left (fun ret p => or_PFmla ret (pre_PFmla ds (xn p))) qs r)).
  { clear. induction qs as [|p qs IH]; intros r F R; auto. inversion F; subst. cbn. apply IH; auto. apply or_static; auto. apply pre_static; auto. }
  apply G; auto. apply cst_static.
Qed.
Lemma ximg_static : forall qs, Forall (proc_ok ds) qs -> state_fmla ds (ximg ds qs).
Proof.
  intros qs F. unfold ximg. assert (G : forall qs r, Forall (proc_ok ds) qs -> state_fmla ds r ->
    state_fmla ds (fold_left (fun ret p => or_PFmla ret (img_PFmla ds (xn p))) qs r)).
  { clear. induction qs as [|p qs IH]; intros r F R; auto. inversion F as [|? ? P F']; subst. cbn. apply IH; auto. apply or_static; auto. apply img_is_state. apply P. }
  apply G; auto. apply cst_static.
Qed.
Lemma and_static : forall f g, state_fmla ds f -> state_fmla ds g -> state_fmla ds (and_PFmla f g).
Proof. intros f g F H. apply state_of_eval. intros a i p A I P. rewrite !eval_and. f_equal; apply (state_eval ds); auto. Qed.

(** Sweeps are made of steps. *)
Definition part (qs : list proc) : Prop := forall p, In p qs -> In p ps.
Lemma part_rev : part (rev ps).
Proof. intros p H. apply in_rev. auto. Qed.
Lemma part_cons : forall p qs, part (p :: qs) -> In p ps /\ part qs.
Proof. intros p qs H. split; [apply H; left; auto|intros q Q; apply H; right; auto]. Qed.
Lemma swept_ok : forall qs s t, swept qs s t -> ok s -> ok t.
Proof.
  induction qs as [|p qs IH]; cbn; intros s t H O; [subst; auto|]. destruct H as (u & U & _ & H). eauto.
Qed.
Lemma turned_reaches : forall p s t, In p ps -> ok s -> ok t -> turned p s t -> reaches _ system_step s t.
Proof.
  intros p s t I S T [H|(-> & _)]; [|apply reaches_refl]. apply reaches_step. split; [auto|]. split; eauto.
Qed.
Lemma swept_reaches : forall qs s t, part qs -> ok s -> swept qs s t -> reaches _ system_step s t.
Proof.
  induction qs as [|p qs IH]; cbn; intros s t P O H; [subst; apply reaches_refl|]. destruct (part_cons _ _ P) as (I & P').
  destruct H as (u & U & T & H). eapply reaches_trans; [apply (turned_reaches p s u); auto|apply IH; auto].
Qed.
(** A sweep that finds an enabled process makes a step, and the last one leads to its end. *)
Lemma swept_moves : forall qs s t, part qs -> ok s -> swept qs s t ->
  (s = t /\ forall p, In p qs -> ~ can_act p s) \/
  (exists n, steps _ system_step (S n) s t) /\ (exists p u, In p qs /\ ok u /\ proc_step p u t).
Proof.
  induction qs as [|p qs IH]; cbn; intros s t P O H; [left; split; auto|]. destruct (part_cons _ _ P) as (I & P').
  destruct H as (u & U & T & H). destruct T as [T|(-> & T)].
  - right. assert (ST : steps _ system_step 1 s u) by (apply steps_one; split; [auto|]; split; eauto).
    destruct (IH u t P' U H) as [(-> & _)|((n & NS) & q & v & Q & V & SV)].
    + split; [exists 0; auto|]. exists p, s. auto.
    + split; [exists (S n); apply (steps_app _ _ 1 (S n) s u t ST NS)|]. exists q, v. auto.
  - destruct (IH s t P' O H) as [(-> & D)|(R & q & v & Q & V & S)].
    + left. split; auto. intros q [<-|Q]; auto.
    + right. split; auto. exists q, v. auto.
Qed.
Lemma swept_silent : forall qs s t, part qs -> ok s -> ~ enabled s -> swept qs s t -> s = t.
Proof.
  induction qs as [|p qs IH]; cbn; intros s t P O E H; auto. destruct (part_cons _ _ P) as (I & P').
  destruct H as (u & U & T & H). destruct T as [T|(-> & T)]; [|auto]. destruct E. exists p. split; auto. exists u; auto.
Qed.
Lemma swept_idle : forall qs s, part qs -> ok s -> ~ enabled s -> swept qs s s.
Proof.
  induction qs as [|p qs IH]; cbn; intros s P O E; auto. destruct (part_cons _ _ P) as (I & P').
  exists s. split; [auto|]. split; [|auto]. right. split; auto. intros C. apply E. exists p. auto.
Qed.
Lemma turned_total : forall p s, In p ps -> ok s -> exists t, ok t /\ turned p s t.
Proof.
  intros p s I O. destruct (can_act_dec ds p s (in_ok p I) O) as [(t & T & H)|H]; [exists t; split; auto; left; auto|exists s; split; auto; right; auto].
Qed.
Lemma swept_total : forall qs s, part qs -> ok s -> exists t, swept qs s t.
Proof.
  induction qs as [|p qs IH]; cbn; intros s P O; [eauto|]. destruct (part_cons _ _ P) as (I & P').
  destruct (turned_total p s I O) as (u & U & T). destruct (IH u P' U) as (t & H). eauto 6.
Qed.

(** Sweeps as a decidable relation *)
Definition stepb (p : proc) (s t : list nat) : bool :=
  eval (xn p) (join s t s) && forallb (fun k => existsb (Nat.eqb k) (wvbls p) || (nth k s 0 =? nth k t 0)) (seq 0 (length ds)).
Lemma stepb_step : forall p s t, stepb p s t = true <-> proc_step p s t.
Proof.
  intros p s t. unfold stepb, FmlaSpec.proc_step, FmlaSpec.steps, meaning, agree_off. rewrite andb_true_iff, forallb_forall.
  split; intros (H & K); split; auto.
  - intros k L NI. specialize (K k). rewrite in_seq in K. specialize (K ltac:(lia)). apply orb_true_iff in K. destruct K as [K|K].
    + apply existsb_exists in K. destruct K as (j & J & E). apply Nat.eqb_eq in E. subst. contradiction.
    + apply Nat.eqb_eq. auto.
  - intros k L. apply in_seq in L. apply orb_true_iff. destruct (in_dec Nat.eq_dec k (wvbls p)) as [I|NI].
    + left. apply existsb_exists. exists k. split; auto. apply Nat.eqb_refl.
    + right. apply Nat.eqb_eq. apply K; auto. lia.
Qed.
Definition turnedb (p : proc) (s t : list nat) : bool :=
  stepb p s t || ((if list_eq_dec Nat.eq_dec t s then true else false) && negb (eval (pre_PFmla ds (xn p)) (join s s s))).
Lemma turnedb_turned : forall p s t, In p ps -> ok s -> (turnedb p s t = true <-> turned p s t).
Proof.
  intros p s t I O. unfold turnedb, UniringSpec.turned. rewrite orb_true_iff, stepb_step, andb_true_iff, negb_true_iff.
  rewrite <- (can_act_pre ds p s (in_ok p I) O). unfold holds, meaning. rewrite not_true_iff_false.
  destruct (list_eq_dec Nat.eq_dec t s); intuition congruence.
Qed.
Fixpoint sweptb (qs : list proc) (s t : list nat) : bool :=
  match qs with
  | [] => if list_eq_dec Nat.eq_dec s t then true else false
  | p :: qs' => existsb (fun u => turnedb p s u && sweptb qs' u t) (assignments ds)
  end.
Lemma sweptb_swept : forall qs s t, part qs -> ok s -> (sweptb qs s t = true <-> swept qs s t).
Proof.
  induction qs as [|p qs IH]; cbn; intros s t P O.
  - destruct (list_eq_dec Nat.eq_dec s t); split; auto; discriminate.
  - destruct (part_cons _ _ P) as (I & P'). rewrite existsb_exists. split.
    + intros (u & U & H). apply in_assignments in U. apply andb_true_iff in H. destruct H as (H1 & H2). exists u. split; [auto|].
      split; [apply turnedb_turned; auto|apply IH; auto].
    + intros (u & U & H1 & H2). exists u. split; [apply in_assignments; auto|]. apply andb_true_iff. split; [apply turnedb_turned; auto|apply IH; auto].
Qed.

(** A sweep from an enabled state *)
Definition r (s t : St) : bool := pr (xpre ds ps) s && sweptb (rev ps) (val s) (val t).
Notation R := (rp St r).
Lemma r_spec : forall s t, R s t <-> enabled (val s) /\ swept (rev ps) (val s) (val t).
Proof.
  intros s t. unfold rp, r. rewrite andb_true_iff, (sweptb_swept (rev ps) (val s) (val t) part_rev (val_ok s)).
  rewrite <- (xpre_enabled (val s) (val_ok s)). unfold CmdProofs2.pr, holds, meaning. tauto.
Qed.
Lemma r_total : forall s, enabled (val s) -> exists t, R s t.
Proof.
  intros s E. destruct (swept_total (rev ps) (val s) part_rev (val_ok s)) as (t & H).
  destruct (lift t (swept_ok _ _ _ H (val_ok s))) as (t' & <-). exists t'. apply r_spec. auto.
Qed.
Lemma r_steps : forall s t, R s t -> exists n, steps _ system_step (S n) (val s) (val t).
Proof.
  intros s t H. apply r_spec in H. destruct H as ((p & I & C) & H).
  destruct (swept_moves (rev ps) _ _ part_rev (val_ok s) H) as [(_ & D)|(S & _)]; auto.
  destruct (D p); auto. apply in_rev in I. auto.
Qed.
Lemma r_img : forall s t, R s t -> exists p u, In p ps /\ ok u /\ proc_step p u (val t).
Proof.
  intros s t H. apply r_spec in H. destruct H as ((p & I & C) & H).
  destruct (swept_moves (rev ps) _ _ part_rev (val_ok s) H) as [(_ & D)|(_ & q & u & Q & U & S)].
  - destruct (D p); auto. apply in_rev in I. auto.
  - exists q, u. split; auto. apply in_rev. auto.
Qed.
Lemma r_steps_n : forall n s t, steps _ R n s t -> exists m, n <= m /\ steps _ system_step m (val s) (val t).
Proof.
  induction n as [|n IH]; intros s t H.
  - apply steps_0 in H. subst. exists 0. split; auto. apply steps_0. auto.
  - apply steps_S in H. destruct H as (u & H & K). destruct (r_steps s u H) as (a & A). destruct (IH u t K) as (b & B & C).
    exists (S a + b). split; [lia|]. eapply steps_app; eauto.
Qed.
Lemma r_reaches : forall s t, reaches _ R s t -> reaches _ system_step (val s) (val t).
Proof. intros s t (n & H). destruct (r_steps_n n s t H) as (m & _ & M). exists m; auto. Qed.
Lemma r_cycle : forall s, on_cycle _ R s -> cyclic ds ps (val s).
Proof. intros s (n & H). destruct (r_steps_n _ s s H) as (m & L & M). destruct m as [|m]; [lia|]. exists m. auto. Qed.
Lemma cycle_next : forall St' (Q : St' -> St' -> Prop) s, on_cycle St' Q s -> exists t, Q s t /\ on_cycle St' Q t.
Proof.
  intros St' Q s (n & H). pose proof H as H0. apply steps_S in H. destruct H as (t & H & K). exists t. split; auto. exists n.
  apply steps_S_r. eauto.
Qed.

Section Assumed.
Variable assumed : option fmla.
Hypothesis CL : closed_option ds ps assumed.
Notation A := (in_set assumed).
Notation F0 := (first_span ds ps assumed).
Definition F (k : nat) : fmla := Nat.iter k (sweep ds ps) F0.
Lemma F0_proper : proper_set ds F0.
Proof.
  assert (B : proper_set ds (ensure_ctx (and_PFmla (xpre ds ps) (ximg ds ps)))).
  { split.
    - apply ensure_static. apply and_static; [apply xpre_static|apply ximg_static]; auto.
    - destruct (and_PFmla _ _); cbn; discriminate. }
  unfold first_span. destruct assumed as [a|]; auto. destruct B as (B1 & B2). destruct CL as (C & _).
  split; [apply and_static; auto|apply and_not_true; auto].
Qed.
Lemma F0_holds : forall s, ok s -> (holds F0 s <-> enabled s /\ (exists p u, In p ps /\ ok u /\ FmlaSpec.steps (xn p) u s) /\ A s).
Proof.
  intros s O. unfold first_span, in_set. destruct assumed as [a|].
  - rewrite holds_and, ensure_holds, holds_and, (xpre_enabled s O), (ximg_over ds ps s OK O). tauto.
  - rewrite ensure_holds, holds_and, (xpre_enabled s O), (ximg_over ds ps s OK O). tauto.
Qed.
Lemma sweep_ok : forall X, proper_set ds X -> proper_set ds (sweep ds ps X).
Proof. intros X H. apply sweep_proper; auto. apply Forall_rev. auto. Qed.
Lemma F_proper : forall k, proper_set ds (F k).
Proof. induction k as [|k IH]; [apply F0_proper|]. apply (sweep_ok (F k) IH). Qed.

Definition S0 : St -> bool := pr F0.
Lemma pr_holds : forall f s, pr f s = true <-> holds f (val s).
Proof. intros f s. unfold CmdProofs2.pr, holds, meaning. tauto. Qed.
Lemma A_reaches : forall s t, ok s -> A s -> reaches _ system_step s t -> A t.
Proof.
  intros s t O H K. unfold in_set in *. destruct assumed as [a|]; auto. destruct CL as (_ & C).
  eapply (closed_reaches _ system_step (holds a)); [exact C|exact H|exact K].
Qed.
Lemma cycle_in_S0 : forall c, on_cycle _ R c -> A (val c) -> S0 c = true.
Proof.
  intros c C H. unfold S0. apply pr_holds, F0_holds; [apply val_ok|]. split; [|split; auto].
  - destruct (cycle_next _ R c C) as (t & T & _). apply r_spec in T. tauto.
  - destruct C as (n & C). apply steps_S_r in C. destruct C as (u & _ & C). destruct (r_img u c C) as (p & v & I & V & (S & _)). eauto.
Qed.
Lemma S0_A : forall s, S0 s = true -> A (val s) /\ enabled (val s).
Proof. intros s H. apply pr_holds, F0_holds in H; [|apply val_ok]. tauto. Qed.
Lemma S0_cycle_closed : cycle_closed _ R (fun s => S0 s = true).
Proof.
  intros s c H K C. apply cycle_in_S0; auto. destruct (S0_A s H) as (HA & _). eapply A_reaches; eauto using val_ok, r_reaches.
Qed.
Notation sp := (span St eq_dec univ r S0).
Lemma sp_fixed : fixed St eq_dec univ r S0 N.
Proof. apply (fixed_exists St eq_dec univ all_states). exact S0_cycle_closed. Qed.

Lemma F_step : forall k t, pr (F (S k)) t = true <-> exists s, pr (F k) s = true /\ swept (rev ps) (val s) (val t).
Proof.
  intros k t. rewrite pr_holds. change (F (S k)) with (sweep ds ps (F k)). unfold sweep.
  rewrite (sweep_holds ds (rev ps) (F k) (val t) (Forall_rev OK) (F_proper k) (val_ok t)). split.
  - intros (s & O & H & K). destruct (lift s O) as (s' & <-). exists s'. split; auto.
  - intros (s & H & K). exists (val s). split; [apply val_ok|]. split; auto.
Qed.
Lemma F_span : forall k t, pr (F k) t = true <-> sp k t = true \/ (~ enabled (val t) /\ exists j, j <= k /\ sp j t = true).
Proof.
  induction k as [|k IH]; intros t.
  - cbn. split; [auto|]. intros [H|(_ & j & J & H)]; auto. replace j with 0 in H by lia. auto.
  - rewrite F_step. split.
    + intros (s & H & K). apply IH in H. destruct (enabled_dec (val s) (val_ok s)) as [E|E].
      * left. destruct H as [H|(C & _)]; [|contradiction]. cbn [span]. apply (img_spec St eq_dec univ all_states). exists s. split; auto.
        apply r_spec. auto.
      * right. apply swept_silent in K; auto using part_rev, val_ok. apply val_inj in K. subst t. split; auto.
        destruct H as [H|(_ & j & J & H)]; [exists k|exists j]; auto.
    + intros [H|(E & j & J & H)].
      * cbn [span] in H. apply (img_spec St eq_dec univ all_states) in H. destruct H as (s & H & K). exists s. split; [apply IH; auto|].
        apply r_spec in K. tauto.
      * destruct (Nat.eq_dec j (S k)) as [->|NE].
        -- cbn [span] in H. apply (img_spec St eq_dec univ all_states) in H. destruct H as (s & H & K). exists s. split; [apply IH; auto|].
           apply r_spec in K. tauto.
        -- exists t. split; [|apply swept_idle; auto using part_rev, val_ok]. apply IH. right. split; auto. exists j. split; [lia|auto].
Qed.
Definition settled_at (k : nat) : Prop := forall t, pr (F k) t = pr (F (S k)) t.
Lemma settled_N : settled_at N.
Proof.
  intros t. apply eq_true_iff_eq. rewrite !F_span. pose proof (sp_fixed t) as E. split.
  - intros [H|(D & j & J & H)]; [left; congruence|right; split; auto; exists j; auto].
  - intros [H|(D & j & J & H)]; [left; congruence|]. destruct (Nat.eq_dec j (S N)) as [->|NE]; [left; congruence|right; split; auto; exists j; split; [lia|auto]].
Qed.
Lemma settled_later : forall k, settled_at k -> forall j t, pr (F (k + j)) t = pr (F k) t.
Proof.
  intros k H. induction j as [|j IH]; intros t; [rewrite Nat.add_0_r; auto|].
  rewrite (H t). replace (k + S j) with (S (k + j)) by lia. apply eq_true_iff_eq. rewrite !F_step.
  split; intros (s & K & L); exists s; (split; [|auto]); [rewrite <- IH|rewrite IH]; auto.
Qed.
Lemma equiv_settled : forall k, equiv_ck ds (F k) (sweep ds ps (F k)) = true <-> settled_at k.
Proof.
  intros k. pose proof (F_proper k) as (P & _). pose proof (F_proper (S k)) as (P' & _).
  change (sweep ds ps (F k)) with (F (S k)). rewrite (equiv_pr ds INH); auto.
  apply (equiv_spec St univ all_states).
Qed.

(** The enabled states of the settled set *)
Lemma settled_char : forall k, settled_at k -> forall t, enabled (val t) ->
  (pr (F k) t = true <-> exists c, A (val c) /\ on_cycle _ R c /\ reaches _ R c t).
Proof.
  intros k H t E. split.
  - intros K. set (X := fun s => sp k s && pr (xpre ds ps) s).
    assert (XE : forall s, X s = true <-> sp k s = true /\ enabled (val s)).
    { intros s. unfold X. rewrite andb_true_iff, pr_holds, (xpre_enabled _ (val_ok s)). tauto. }
    destruct (back_cycle St eq_dec univ all_states r X) with (s := t) as (c & C1 & C2 & C3).
    + intros s XS. apply XE in XS. destruct XS as (XS & SE).
      assert (G : pr (F (S k)) s = true) by (rewrite <- (H s); apply F_span; auto).
      apply F_span in G. destruct G as [G|(G & _)]; [|contradiction].
      cbn [span] in G. apply (img_spec St eq_dec univ all_states) in G. destruct G as (u & U & V). exists u. split; auto.
      apply XE. split; auto. apply r_spec in V. tauto.
    + apply XE. split; auto. apply F_span in K. destruct K as [K|(K & _)]; [auto|contradiction].
    + exists c. split; [|auto]. apply XE in C1. destruct C1 as (C1 & _).
      apply (span_spec St eq_dec univ all_states) in C1. destruct C1 as (s & HS & RS).
      eapply A_reaches; [apply val_ok|apply (S0_A s HS)|]. apply r_reaches. exists k. auto.
  - intros (c & CA & CC & (l & CR)). destruct (cycle_back _ R c CC k) as (v & V1 & V2 & V3).
    rewrite <- (settled_later k H l). apply F_span. left. apply (span_spec St eq_dec univ all_states). exists v. split.
    + apply cycle_in_S0; auto. eapply A_reaches; [apply val_ok|exact CA|]. apply r_reaches; auto.
    + eapply steps_app; eauto.
Qed.

(** The loop *)
Definition stops (inv : option fmla) (k : nat) : Prop :=
  settled_at k \/ match inv with Some i => subseteq_ck ds (F k) i = true | None => False end.
Lemma sweeps_null : forall inv done fuel j n, (exists k, j <= k < j + fuel /\ settled_at k) ->
  exists k, j <= k /\ settled_at k /\ sweeps ds ps fuel inv None done n (F j) = Some (Stable (F k) done).
Proof.
  intros inv done. induction fuel as [|fuel IH]; intros j n (k & K & SK); [lia|]. cbn [sweeps].
  destruct (equiv_ck ds (F j) (sweep ds ps (F j))) eqn:E.
  - exists j. split; auto. split; auto. apply equiv_settled; auto.
  - destruct (IH (S j) n) as (k' & H1 & H2 & H3).
    + exists k. split; auto. assert (k <> j); [|lia]. intros ->. apply equiv_settled in SK. congruence.
    + exists k'. split; [lia|]. split; auto.
Qed.
Lemma sweeps_limit : forall inv lim fuel j, (exists k, j <= k < j + fuel /\ settled_at k) -> lim = 0 \/ j + 1 <= lim ->
  (forall i, i < j -> ~ stops inv i) ->
  exists res, sweeps ds ps fuel inv (Some lim) None (j + 1) (F j) = Some res /\
  match res with
  | TooMany n => 0 < lim /\ n = lim + 1 /\ forall i, i < lim -> ~ stops inv i
  | Stable X nl => exists k m, settled_at k /\ X = F k /\ nl = Some (m + 1) /\ m <= k /\ stops inv m /\
      (forall i, i < m -> ~ stops inv i) /\ (lim = 0 \/ m + 1 <= lim)
  end.
Proof.
  intros inv lim. induction fuel as [|fuel IH]; intros j (k & K & SK) L B; [lia|]. cbn [sweeps].
  destruct (equiv_ck ds (F j) (sweep ds ps (F j))) eqn:E.
  - eexists. split; [reflexivity|]. apply equiv_settled in E. exists j, j. split; auto. split; auto. split; auto. split; [lia|]. split; [left; auto|]. split; auto.
  - assert (NF : ~ settled_at j) by (intros H; apply equiv_settled in H; congruence).
    assert (K' : exists k, S j <= k < S j + fuel /\ settled_at k).
    { exists k. split; auto. assert (k <> j) by (intros ->; auto). lia. }
    match goal with |- context [if ?b then _ else _] => destruct b eqn:Ei end.
    + destruct (sweeps_null inv (Some (j + 1)) fuel (S j) (j + 1) K') as (k2 & H1 & H2 & H3).
      change (F (S j)) with (sweep ds ps (F j)) in H3. rewrite H3. eexists. split; [reflexivity|].
      exists k2, j. split; auto. split; auto. split; auto. split; [lia|]. split; [|split; auto]. right. destruct inv; auto. discriminate.
    + assert (NS : ~ stops inv j) by (intros [H|H]; auto; destruct inv; auto; congruence).
      destruct ((0 <? lim) && (lim <? j + 1 + 1)) eqn:El.
      * apply andb_true_iff in El. destruct El as (E1 & E2). apply Nat.ltb_lt in E1, E2. eexists. split; [reflexivity|].
        split; auto. split; [lia|]. intros i I. assert (C : i < j \/ i = j) by lia. destruct C as [C| ->]; auto.
      * apply andb_false_iff in El. rewrite !Nat.ltb_ge in El. replace (j + 1 + 1) with (S j + 1) by lia.
        apply (IH (S j)); auto; [destruct El; [left; lia|right; lia]|].
        intros i I. assert (C : i < j \/ i = j) by lia. destruct C as [C| ->]; auto.
Qed.

(** The set that is returned *)
Definition result (k : nat) : fmla := collected ds ps (and_PFmla (F k) (xpre ds ps)).
Lemma result_proper : forall k, proper_set ds (and_PFmla (F k) (xpre ds ps)).
Proof. intros k. destruct (F_proper k). split; [apply and_static; auto; apply xpre_static; auto|apply and_not_true; auto]. Qed.
Lemma result_static : forall k, state_fmla ds (result k).
Proof.
  intros k. pose proof (result_proper k). unfold result, collected.
  pose proof (collect_proper ds (rev ps) _ _ (Forall_rev OK) H H) as (X & _). exact X.
Qed.
Definition circling (s : St) : Prop := enabled (val s) /\ exists c, A (val c) /\ on_cycle _ R c /\ reaches _ R c s.
Lemma result_holds : forall k, settled_at k -> forall t, holds (result k) (val t) <->
  circling t \/ exists s, circling s /\ passed (rev ps) (val s) (val t).
Proof.
  intros k H t. pose proof (result_proper k) as P. unfold result, collected.
  rewrite (collect_holds ds (rev ps) _ _ (val t) (Forall_rev OK) P P (val_ok t)).
  assert (G : forall s, holds (and_PFmla (F k) (xpre ds ps)) (val s) <-> circling s).
  { intros s. rewrite holds_and, (xpre_enabled _ (val_ok s)), <- pr_holds. unfold circling. split.
    - intros (X & Y). split; auto. apply (settled_char k H s Y). auto.
    - intros (Y & X). split; auto. apply (settled_char k H s Y). auto. }
  rewrite G. split; (intros [X|X]; [auto|right]).
  - destruct X as (s & O & X & Y). destruct (lift s O) as (s' & <-). exists s'. split; auto. apply G; auto.
  - destruct X as (s & X & Y). exists (val s). split; [apply val_ok|]. split; auto. apply G; auto.
Qed.
Lemma passed_reaches : forall qs s t, part qs -> ok s -> ok t -> passed qs s t -> reaches _ system_step s t.
Proof.
  induction qs as [|p qs IH]; cbn; intros s t P O T H; [contradiction|]. destruct (part_cons _ _ P) as (I & P').
  destruct H as [H|(u & U & TU & H)]; [apply reaches_step; split; [auto|]; split; eauto|].
  eapply reaches_trans; [apply (turned_reaches p s u); auto|apply IH; auto].
Qed.
Lemma result_real : forall k, settled_at k -> forall t, ok t -> holds (result k) t ->
  exists c, ok c /\ A c /\ cyclic ds ps c /\ reaches _ system_step c t.
Proof.
  intros k H t T K. destruct (lift t T) as (t' & <-). apply (result_holds k H) in K.
  destruct K as [(E & c & C1 & C2 & C3)|(s & (E & c & C1 & C2 & C3) & K)]; exists (val c); (split; [apply val_ok|]); (split; [auto|]); (split; [apply r_cycle; auto|]).
  - apply r_reaches; auto.
  - eapply reaches_trans; [apply r_reaches; eauto|]. apply (passed_reaches (rev ps)); auto using part_rev, val_ok.
Qed.

(** What the check answers *)
Lemma check : forall fuel ret inv, prod ds < fuel -> exists ans, uniring_cycle_ck ds ps fuel ret inv assumed = Some ans /\
  match ans with
  | Layers n => exists lim, ret = Some lim /\ 0 < lim /\ n = lim + 1 /\ forall i, i < lim -> ~ stops inv i
  | Stopped => exists k, settled_at k /\ subseteq_ck ds (result k) (xpre ds ps) = false
  | Cycles found scc nl => exists k, settled_at k /\ scc = result k /\ found = sat_ck ds scc /\ subseteq_ck ds scc (xpre ds ps) = true /\
      match ret with None => nl = None | Some lim => exists m, nl = Some (m + 1) /\ stops inv m /\ (forall i, i < m -> ~ stops inv i) /\ (lim = 0 \/ m + 1 <= lim) end
  end.
Proof.
  intros fuel ret inv FU. assert (ST : exists k, 0 <= k < 0 + fuel /\ settled_at k).
  { exists N. split; [|apply settled_N]. pose proof (univ_length ds). lia. }
  unfold uniring_cycle_ck. change (first_span ds ps assumed) with (F 0). destruct ret as [lim|].
  - destruct (sweeps_limit inv lim fuel 0 ST) as (res & E & H); [lia|intros; lia|]. cbn [Nat.add] in E. rewrite E. destruct res as [n|X nl].
    + eexists. split; [reflexivity|]. exists lim. split; auto.
    + destruct H as (k & m & SK & -> & -> & _ & SM & BM & L). fold (result k).
      destruct (subseteq_ck ds (result k) (xpre ds ps)) eqn:SUB; eexists; (split; [reflexivity|]); exists k; [|auto].
      split; auto. split; auto. split; auto. split; auto. exists m. auto.
  - destruct (sweeps_null inv None fuel 0 1 ST) as (k & _ & SK & E). rewrite E. fold (result k).
    destruct (subseteq_ck ds (result k) (xpre ds ps)) eqn:SUB; eexists; (split; [reflexivity|]); exists k; auto.
Qed.
Lemma sat_state : forall f, state_fmla ds f -> (sat_ck ds f = true <-> exists s, ok s /\ holds f s).
Proof.
  intros f SF. rewrite (sat_iff ds INH). split.
  - intros (a & i & p & OA & I & P & H). exists p. split; auto. apply (SF a i p p p); auto.
  - intros (s & O & H). exists s, s, s. auto.
Qed.
Lemma subset_state : forall f g, state_fmla ds f -> state_fmla ds g -> (subseteq_ck ds f g = true <-> forall s, ok s -> holds f s -> holds g s).
Proof.
  intros f g SF SG. rewrite (subseteq_iff ds INH). split.
  - intros H s O K. apply (H s s s O O O K).
  - intros H a i p OA I P K. apply (SG p p a i p); auto. apply H; auto. apply (SF a i p p p); auto.
Qed.

(** Processes with one choice: the set is never rejected. *)
Lemma turned_det : deterministic ds ps -> forall p s t u, In p ps -> ok s -> ok t -> ok u -> turned p s t -> turned p s u -> t = u.
Proof.
  intros D p s t u I S T U [H|(-> & H)] [K|(-> & K)]; auto.
  - apply (D p s t u); auto.
  - destruct K. exists t; auto.
  - destruct H. exists u; auto.
Qed.
Lemma swept_det : deterministic ds ps -> forall qs s t u, part qs -> ok s -> swept qs s t -> swept qs s u -> t = u.
Proof.
  intros D. induction qs as [|p qs IH]; cbn; intros s t u P O H K; [congruence|]. destruct (part_cons _ _ P) as (I & P').
  destruct H as (x & X & H1 & H2), K as (y & Y & K1 & K2). assert (x = y) by (apply (turned_det D p s x y); auto). subst y. eauto.
Qed.
Lemma passed_on : forall qs s t, part qs -> ok s -> ok t -> passed qs s t -> ~ enabled t -> swept qs s t.
Proof.
  induction qs as [|p qs IH]; cbn; intros s t P O T H E; [contradiction|]. destruct (part_cons _ _ P) as (I & P').
  destruct H as [H|(u & U & TU & H)].
  - exists t. split; [auto|]. split; [left; auto|apply swept_idle; auto].
  - exists u. split; [auto|]. split; auto.
Qed.
Lemma det_circling : deterministic ds ps -> forall s t, circling s -> R s t -> enabled (val t).
Proof.
  intros D s t (E & c & _ & CC & CR) RT.
  assert (DR : forall a x y, R a x -> R a y -> x = y).
  { intros a x y X Y. apply r_spec in X, Y. apply val_inj. apply (swept_det D (rev ps) (val a)); auto using part_rev, val_ok; tauto. }
  assert (CS : on_cycle _ R s).
  { destruct CR as (n & CR). clear RT E. revert c CC CR. induction n as [|n IH]; intros c CC CR; [apply steps_0 in CR; subst; auto|].
    apply steps_S in CR. destruct CR as (u & U & CR). destruct (cycle_next _ R c CC) as (u' & U' & CU). rewrite (DR c u u' U U') in CR. eauto. }
  destruct (cycle_next _ R s CS) as (t' & T' & CT). rewrite (DR s t t' RT T').
  destruct (cycle_next _ R t' CT) as (v & V & _). apply r_spec in V. tauto.
Qed.
Lemma det_subset : deterministic ds ps -> forall k, settled_at k -> subseteq_ck ds (result k) (xpre ds ps) = true.
Proof.
  intros D k H. apply subset_state; [apply result_static|apply xpre_static; auto|]. intros s O K. apply (xpre_enabled s O).
  destruct (lift s O) as (s' & <-). apply (result_holds k H) in K. destruct K as [(E & _)|(u & C & K)]; auto.
  destruct (enabled_dec (val s') (val_ok s')) as [E|E]; auto. destruct E.
  pose proof (passed_on (rev ps) (val u) (val s') part_rev (val_ok u) (val_ok s') K) as W.
  destruct (enabled_dec (val s') (val_ok s')) as [E|E]; auto. apply (det_circling D u s' C). apply r_spec. split; auto. apply C.
Qed.
End Assumed.
End P.
