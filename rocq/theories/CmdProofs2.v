(** The cycles of a transition formula, found by the loops on formulas. *)
From Coq Require Import List Arith Bool Lia Eqdep_dec.
From Verif Require Import FinLib Radix FmlaModel FmlaSpec FmlaProofs FmlaProofs2 FmlaProofs4 ReachModel ReachSpec ReachProofs CmdModel.
Import ListNotations.
Local Open Scope list_scope.

Section P.
Variable ds : list nat.
Hypothesis INH : inhabited ds.
Notation ok := (ok ds).
Notation now pf s := (FmlaModel.eval pf (join s s s)).

Definition okb (s : list nat) : bool := if in_dec (list_eq_dec Nat.eq_dec) s (assignments ds) then true else false.
Lemma okb_ok : forall s, okb s = true <-> ok s.
Proof.
  intros s. unfold okb, FmlaSpec.ok. rewrite <- in_assignments. destruct (in_dec _ _ _) as [H|H]; split; intros C; auto; first [discriminate|contradiction].
Qed.
Definition St := {s : list nat | okb s = true}.
Definition val (s : St) : list nat := proj1_sig s.
Lemma val_ok : forall s, ok (val s).
Proof. intros (s & H). apply okb_ok. exact H. Qed.
Lemma val_inj : forall s t, val s = val t -> s = t.
Proof. intros (s & H) (t & K) E. cbn in E. subst t. f_equal. apply UIP_dec. apply bool_dec. Qed.
Lemma eq_dec : forall x y : St, {x = y} + {x <> y}.
Proof. intros x y. destruct (list_eq_dec Nat.eq_dec (val x) (val y)) as [E|NE]; [left; apply val_inj; auto|right; intros ->; auto]. Defined.
Definition mk (s : list nat) : list St := match bool_dec (okb s) true with left H => [exist _ s H] | right _ => [] end.
Definition univ : list St := flat_map mk (assignments ds).
Lemma all_states : forall s, In s univ.
Proof.
  intros (s & H). unfold univ. apply in_flat_map. exists s. split; [apply in_assignments, okb_ok; auto|].
  unfold mk. destruct (bool_dec (okb s) true) as [K|K]; [|contradiction]. left. apply val_inj. auto.
Qed.
Lemma assignments_length : forall l, length (assignments l) = prod l.
Proof.
  induction l as [|d l IH]; auto. cbn [assignments prod]. assert (K : forall vs, length (flat_map (fun v => map (cons v) (assignments l)) vs) = length vs * prod l).
  { induction vs as [|v vs IHv]; auto. cbn [flat_map length]. rewrite app_length, map_length, IH, IHv. lia. }
  rewrite K, seq_length. auto.
Qed.
Lemma univ_length : length univ <= prod ds.
Proof.
  rewrite <- assignments_length. unfold univ. induction (assignments ds) as [|s l IH]; auto. cbn [flat_map length]. rewrite app_length.
  assert (length (mk s) <= 1) by (unfold mk; destruct (bool_dec _ _); cbn; lia). lia.
Qed.
Lemma lift : forall s, ok s -> exists s', val s' = s.
Proof. intros s H. apply okb_ok in H. exists (exist _ s H). auto. Qed.

Definition pr (f : fmla) : St -> bool := fun s => now f (val s).
Definition rl (x : fmla) : St -> St -> bool := fun s t => FmlaModel.eval x (join (val s) (val t) (val s)).

Section Xn.
Variable x : fmla.
Hypothesis TX : trans_fmla ds x.
Hypothesis NT : x <> Cst true.
Lemma proper : forall q, ~ const_true_on_empty ds x q.
Proof. intros q (E & _). contradiction. Qed.

Lemma equiv_pr : forall f g, state_fmla ds f -> state_fmla ds g -> equiv_ck ds f g = equiv St univ (pr f) (pr g).
Proof.
  intros f g F H. apply iff_eqb. rewrite (equiv_iff ds INH), (equiv_spec St univ all_states). split.
  - intros E s. apply E; apply val_ok.
  - intros E a i s A I S. rewrite (state_eval ds f F a i s), (state_eval ds g H a i s) by auto.
    destruct (lift s S) as (s' & <-). apply E.
Qed.
Lemma img_pr : forall f s, state_fmla ds f -> pr (img1_PFmla ds x f) s = img St eq_dec univ (rl x) (pr f) s.
Proof.
  intros f s F. apply iff_eqb. rewrite (img_spec St eq_dec univ all_states). unfold pr, rl.
  pose proof (img1_state ds x f (val s) (val_ok s) TX F (proper f)) as H. unfold holds, FmlaSpec.steps, meaning in H. rewrite H. split.
  - intros (t & T & H1 & H2). destruct (lift t T) as (t' & <-). exists t'. auto.
  - intros (t & H1 & H2). exists (val t). split; [apply val_ok|auto].
Qed.
Lemma pre_pr : forall f s, state_fmla ds f -> pr (pre1_PFmla ds x f) s = pre St eq_dec univ (rl x) (pr f) s.
Proof.
  intros f s F. apply iff_eqb. rewrite (pre_spec St eq_dec univ all_states). unfold pr, rl.
  pose proof (pre1_state ds x f (val s) (val_ok s) TX F (proper f)) as H. unfold holds, FmlaSpec.steps, meaning in H. rewrite H. split.
  - intros (t & T & H1 & H2). destruct (lift t T) as (t' & <-). exists t'. auto.
  - intros (t & H1 & H2). exists (val t). split; [apply val_ok|auto].
Qed.

Lemma some_ok : forall f, state_fmla ds f -> x = Cst true -> (exists q, f = Mdd q) -> exists t, ok t /\ holds f t.
Proof. intros f F E. contradiction. Qed.
Lemma img1_static : forall f, state_fmla ds f -> state_fmla ds (img1_PFmla ds x f).
Proof.
  intros f F a i a' i' p A I A' I' P. unfold meaning. rewrite !ev_img1 by (auto; intros; contradiction).
  split; intros (t & T & H1 & H2); exists t; (split; [auto|]).
  - rewrite (trans_eval ds x TX a' p t), <- (trans_eval ds x TX a p t) by auto. rewrite (state_eval ds f F a' p t), <- (state_eval ds f F a p t) by auto. auto.
  - rewrite (trans_eval ds x TX a p t), <- (trans_eval ds x TX a' p t) by auto. rewrite (state_eval ds f F a p t), <- (state_eval ds f F a' p t) by auto. auto.
Qed.
Lemma pre1_static : forall f, state_fmla ds f -> state_fmla ds (pre1_PFmla ds x f).
Proof.
  intros f F a i a' i' p A I A' I' P. unfold meaning. rewrite !ev_pre1 by (auto; intros; contradiction).
  split; intros (t & T & H1 & H2); exists t; (split; [auto|]).
  - rewrite (trans_eval ds x TX a' t p), <- (trans_eval ds x TX a t p) by auto. rewrite (state_eval ds f F a' t t), <- (state_eval ds f F a t t) by auto. auto.
  - rewrite (trans_eval ds x TX a t p), <- (trans_eval ds x TX a' t p) by auto. rewrite (state_eval ds f F a t t), <- (state_eval ds f F a' t t) by auto. auto.
Qed.
Lemma and_static : forall f g, state_fmla ds f -> state_fmla ds g -> state_fmla ds (and_PFmla f g).
Proof.
  intros f g F H. apply state_of_eval. intros a i p A I P. rewrite !eval_and. f_equal; apply (state_eval ds); auto.
Qed.

Lemma fwd_same : forall fuel f q, state_fmla ds f -> (forall s, pr f s = q s) ->
  match cyc_fwd St eq_dec univ fuel (rl x) None None None 1 q with
  | Some (Fixpoint_at _ q' _) => exists f', fwd_loop ds fuel x f = Some f' /\ state_fmla ds f' /\ forall s, pr f' s = q' s
  | Some (TooMany _ _) => False
  | None => fwd_loop ds fuel x f = None
  end.
Proof.
  induction fuel as [|fuel IH]; intros f q F E; cbn [cyc_fwd fwd_loop]; auto.
  assert (EQ : equiv_ck ds f (img1_PFmla ds x f) = equiv St univ q (img St eq_dec univ (rl x) q)).
  { rewrite equiv_pr by (auto using img1_static). apply iff_eqb. rewrite !(equiv_spec St univ all_states). split; intros H s.
    - rewrite <- E, H, img_pr by auto. apply img_ext; auto using all_states.
    - rewrite E, H, img_pr by auto. apply img_ext; auto using all_states. }
  rewrite EQ. destruct (equiv St univ q (img St eq_dec univ (rl x) q)); [eauto|].
  apply IH; [apply img1_static; auto|]. intros s. rewrite img_pr by auto. apply img_ext; auto using all_states.
Qed.
Lemma bwd_same : forall fuel f q, state_fmla ds f -> (forall s, pr f s = q s) ->
  match cyc_bwd St eq_dec univ fuel (rl x) q with
  | Some q' => exists f', bwd_loop ds fuel x f = Some f' /\ state_fmla ds f' /\ forall s, pr f' s = q' s
  | None => bwd_loop ds fuel x f = None
  end.
Proof.
  induction fuel as [|fuel IH]; intros f q F E; cbn [cyc_bwd bwd_loop]; auto.
  assert (AND : forall s, pr (and_PFmla f (pre1_PFmla ds x f)) s = pand St eq_dec univ q (pre St eq_dec univ (rl x) q) s).
  { intros s. rewrite (pand_spec St eq_dec univ all_states). unfold pr at 1. rewrite eval_and. fold (pr f s). fold (pr (pre1_PFmla ds x f) s).
    rewrite E, pre_pr by auto. f_equal. apply iff_eqb. rewrite !(pre_spec St eq_dec univ all_states). split; intros (t & H1 & H2); exists t; split; auto; congruence. }
  assert (EQ : equiv_ck ds f (and_PFmla f (pre1_PFmla ds x f)) = equiv St univ q (pand St eq_dec univ q (pre St eq_dec univ (rl x) q))).
  { rewrite equiv_pr by (auto using and_static, pre1_static). apply iff_eqb. rewrite !(equiv_spec St univ all_states). split; intros H s.
    - rewrite <- E, H. apply AND.
    - rewrite E, H. symmetry. apply AND. }
  rewrite EQ. destruct (equiv St univ q _); [eauto|]. apply IH; auto using and_static, pre1_static.
Qed.
End Xn.

(** The relation of a formula on the states. *)
Definition xrel (x : fmla) (s t : list nat) : Prop := ok s /\ ok t /\ FmlaSpec.steps x s t.

Lemma steps_val : forall x n s t, ReachSpec.steps St (fun s t => rl x s t = true) n s t <->
  ReachSpec.steps (list nat) (xrel x) n (val s) (val t).
Proof.
  intros x n. induction n as [|n IH]; intros s t.
  - rewrite !steps_0. split; [intros ->; auto|apply val_inj].
  - rewrite !steps_S. split.
    + intros (u & H1 & H2). exists (val u). split; [|apply IH; auto]. split; [apply val_ok|]. split; [apply val_ok|exact H1].
    + intros (u & (H1 & H2 & H3) & H4). destruct (lift u H2) as (u' & <-). exists u'. split; [exact H3|apply IH; auto].
Qed.
Lemma reaches_ok : forall x s t, ReachSpec.reaches (list nat) (xrel x) s t -> ok s -> ok t.
Proof.
  intros x s t (n & H) S. revert s S H. induction n as [|n IH]; intros s S H; [apply steps_0 in H; subst; auto|].
  apply steps_S in H. destruct H as (u & (_ & U & _) & H). eauto.
Qed.
Lemma cycle_ok : forall x s, on_cycle (list nat) (xrel x) s -> ok s.
Proof. intros x s (n & H). apply steps_S in H. destruct H as (u & (S & _) & _). auto. Qed.

Lemma scc_found : forall x, trans_fmla ds x -> exists scc, scc_of ds x = Some scc /\ state_fmla ds scc /\
  forall s, ok s -> (holds scc s <-> between_cycles (list nat) (xrel x) (fun _ => True) s).
Proof.
  intros x TX. assert (D : x = Cst true \/ x <> Cst true) by (destruct x as [[]|]; [left; auto|right; discriminate|right; discriminate]).
  destruct D as [->|NT].
  - exists (Cst true). split; [reflexivity|]. split; [intros a i a' i' p _ _ _ _ _; unfold meaning; cbn; tauto|].
    intros s S. unfold holds, meaning. cbn. split; auto. intros _. assert (C : on_cycle (list nat) (xrel (Cst true)) s).
    { exists 0. apply steps_one. split; auto. split; auto. reflexivity. }
    exists s, s. repeat split; auto; apply reaches_refl.
  - assert (T0 : state_fmla ds (Cst true)) by (intros a i a' i' p _ _ _ _ _; unfold meaning; cbn; tauto).
    assert (FU : length univ < 2 + prod ds) by (pose proof univ_length; lia).
    destruct (cycle_ck_exact St eq_dec univ all_states (2 + prod ds) (rl x) None None FU) as (q & E & H & _); [intros s c _ _ _; reflexivity|].
    unfold cycle_ck in E. cbn [start_states] in E.
    pose proof (fwd_same x TX NT (2 + prod ds) (Cst true) (fun _ => true) T0 (fun s => eq_refl)) as FW.
    destruct (cyc_fwd St eq_dec univ (2 + prod ds) (rl x) None None None 1 (fun _ => true)) as [[|q1 n]|]; [discriminate| |discriminate].
    destruct FW as (f1 & F1 & ST1 & P1). pose proof (bwd_same x TX NT (2 + prod ds) f1 q1 ST1 P1) as BW.
    destruct (cyc_bwd St eq_dec univ (2 + prod ds) (rl x) q1) as [q2|]; [|discriminate]. injection E as _ -> _.
    destruct BW as (f2 & F2 & ST2 & P2). exists f2. unfold scc_of. rewrite F1, F2. split; auto. split; auto.
    intros s S. destruct (lift s S) as (s' & <-). unfold holds, meaning. fold (pr f2 s'). rewrite P2, H. unfold between_cycles, on_cycle, reaches. split.
    + intros (c1 & c2 & _ & (n1 & H1) & (n2 & H2) & (n3 & H3) & (n4 & H4)). exists (val c1), (val c2). split; auto.
      apply steps_val in H1, H2, H3, H4. eauto 12.
    + intros (c1 & c2 & _ & (n1 & H1) & (n2 & H2) & (n3 & H3) & (n4 & H4)).
      destruct (lift c1 (cycle_ok x c1 (ex_intro _ n1 H1))) as (d1 & <-). destruct (lift c2 (cycle_ok x c2 (ex_intro _ n4 H4))) as (d2 & <-).
      exists d1, d2. split; auto. apply steps_val in H1, H2, H3, H4. eauto 12.
Qed.
End P.
