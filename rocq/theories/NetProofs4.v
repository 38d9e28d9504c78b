(** The cached formulas, exactly; the formulas of all processes together. *)
From Coq Require Import List Arith Bool Lia.
From Verif Require Import FinLib Radix FmlaModel FmlaSpec FmlaProofs FmlaProofs2 FmlaProofs3 FmlaProofs4 FmlaProps
  ActModel ActSpec ActProofs ActProofs2 ActProofs4 ActProps NetModel NetSpec NetProofs NetProofs2 NetProofs3.
Import ListNotations.

Section Net.
Variable N : network.
Notation ds := (vdoms N).
Notation ok := (ok (vdoms N)).
Hypothesis HN : net_ok N.
Notation rel := (process -> list nat -> list nat -> Prop).

Definition grow (R : rel) (r : nat) : rel := fun p s t =>
  (R p s t \/ move N r p s t) /\ (deterministic_kind N r -> ~ exists u, ok u /\ (R p u s \/ move N r p u s)).
Definition trace (l : list nat) : rel := fold_left grow l (fun _ _ _ => False).
Definition under (a r : nat) : bool := match representative_action_index (kinds N) r with Some b => b =? a | None => false end.

Lemma under_iff : forall a r, under a r = true <-> representative_action_index (kinds N) r = Some a.
Proof.
  intros a r. unfold under. destruct (representative_action_index (kinds N) r); [rewrite Nat.eqb_eq|]; split; congruence.
Qed.

Lemma none_below : forall m a, m <= a -> m <= actions_in (kinds N) -> filter (under a) (seq 0 m) = [].
Proof.
  intros m a L Hm. destruct (filter (under a) (seq 0 m)) as [|r l] eqn:E; auto. exfalso.
  assert (H : In r (filter (under a) (seq 0 m))) by (rewrite E; cbn; auto). apply filter_In in H. destruct H as (H1 & H2).
  apply in_seq in H1. apply under_iff in H2. destruct (same_kind N HN r a) as (_ & B & _); auto; lia.
Qed.
Lemma none_nonrep : forall m a, representative_action_index (kinds N) a <> Some a -> m <= actions_in (kinds N) ->
  filter (under a) (seq 0 m) = [].
Proof.
  intros m a L Hm. destruct (filter (under a) (seq 0 m)) as [|r l] eqn:E; auto. exfalso.
  assert (H : In r (filter (under a) (seq 0 m))) by (rewrite E; cbn; auto). apply filter_In in H. destruct H as (H1 & H2).
  apply in_seq in H1. apply under_iff in H2. destruct (same_kind N HN r a) as (_ & _ & _ & B); auto; lia.
Qed.

Definition tbl_is (m : nat) (tbl : list (list fmla)) : Prop :=
  length tbl = actions_in (kinds N) /\
  forall a, a < actions_in (kinds N) -> denotes N (nth a tbl []) (trace (filter (under a) (seq 0 m))).

Lemma tbl_is_step : forall m tbl, m < actions_in (kinds N) -> tbl_is m tbl -> tbl_is (S m) (cache_action N tbl m).
Proof.
  intros m tbl Hm (L & H).
  destruct (C40_representative (kinds N) m (links_ok N HN) Hm) as (a & E & LE & SC & EA & MIN).
  destruct (same_kind N HN m a Hm E) as (Ha & _ & DK & _).
  assert (OTHER : forall b, b <> a -> filter (under b) (seq 0 (S m)) = filter (under b) (seq 0 m)).
  { intros b NB. rewrite seq_S, filter_app. cbn [filter Nat.add].
    destruct (under b m) eqn:U; [apply under_iff in U; congruence|apply app_nil_r]. }
  assert (SAME : trace (filter (under a) (seq 0 (S m))) = grow (trace (filter (under a) (seq 0 m))) m).
  { rewrite seq_S, filter_app. cbn [filter Nat.add]. destruct (under a m) eqn:U.
    - unfold trace. rewrite fold_left_app. reflexivity.
    - apply not_true_iff_false in U. exfalso. apply U. apply under_iff. auto. }
  set (Q := trace (filter (under a) (seq 0 m))) in *.
  unfold cache_action. rewrite E.
  set (x := make_action_xfmlae N m). assert (Dx : denotes N x (move N m)) by (apply denotes_action; auto).
  set (tb := if a =? m then _ else _).
  assert (TB : length tb = actions_in (kinds N) /\
    (forall b, b < actions_in (kinds N) -> b <> a -> denotes N (nth b tb []) (trace (filter (under b) (seq 0 (S m))))) /\
    denotes N (nth a tb []) (fun p s t => Q p s t \/ move N m p s t)).
  { unfold tb. destruct (Nat.eqb_spec a m) as [EM|NE].
    - rewrite upd_length. split; auto. split.
      + intros b Hb NB. rewrite nth_upd_other by congruence. rewrite OTHER by auto. apply H; auto.
      + rewrite EM, nth_upd_same by lia. apply (denotes_ext _ _ _ _ Dx). intros p s t _ _ _.
        unfold Q. rewrite none_below by lia. cbn. tauto.
    - cbv zeta. rewrite !upd_length. split; auto. split.
      + intros b Hb NB. rewrite nth_upd_other by congruence. rewrite OTHER by auto. destruct (Nat.eq_dec b m) as [->|NM].
        * rewrite nth_upd_same by lia. rewrite none_nonrep by (try lia; congruence). apply denotes_none; auto.
        * rewrite nth_upd_other by congruence. apply H; auto.
      + rewrite nth_upd_same by (rewrite upd_length; lia). rewrite nth_upd_other by congruence.
        apply denotes_or; auto. apply H; auto. }
  clearbody tb. destruct TB as (TL & TO & TA).
  pose proof (det_iff N m Hm) as DI. destruct (random_write_exists (kind_of_action N m)).
  - split; auto. intros b Hb. destruct (Nat.eq_dec b a) as [->|NB]; [|apply TO; auto].
    rewrite SAME. apply (denotes_ext _ _ _ _ TA). intros p s t _ _ _. unfold grow. split; [|tauto].
    intros X. split; auto. intros D. apply DI in D. discriminate.
  - split; [rewrite upd_length; auto|]. intros b Hb.
    destruct (Nat.eq_dec b a) as [->|NB]; [|rewrite nth_upd_other by congruence; apply TO; auto].
    rewrite nth_upd_same by lia. rewrite SAME. apply (denotes_ext _ _ _ _ (denotes_disable _ _ _ TA)).
    intros p s t _ _ _. unfold grow, disabled. tauto.
Qed.

Lemma cached_trace : forall a, a < actions_in (kinds N) ->
  denotes N (action_xfmlae_cached N a) (trace (represented_actions (kinds N) a)).
Proof.
  assert (G : forall n, n <= actions_in (kinds N) -> tbl_is n (fold_left (cache_action N) (seq 0 n) (repeat (no_xn N) (actions_in (kinds N))))).
  { induction n as [|n IH]; intros Hn.
    - split; [apply repeat_length|]. intros a Ha. cbn [seq filter fold_left].
      rewrite (nth_indep _ [] (no_xn N)) by (rewrite repeat_length; auto). rewrite nth_repeat. apply denotes_none; auto.
    - rewrite seq_S, fold_left_app. cbn [fold_left Nat.add]. apply tbl_is_step; [lia|]. apply IH. lia. }
  intros a Ha. destruct (G (actions_in (kinds N))) as (_ & H); [lia|]. specialize (H a Ha).
  unfold action_xfmlae_cached, act_xfmlaes, represented_actions. cbv zeta. rewrite C39_total. exact H.
Qed.

(** Transition formulas of all processes together. *)
Lemma denotes_trans : forall xs R, denotes N xs R -> trans_fmla ds (xfmla ds (procs_of N xs)).
Proof.
  intros xs R H. apply trans_of_eval. intros a i q A I Q. unfold xfmla, procs_of.
  unfold denotes in H.
  assert (G : forall ps xs, Forall2 (fun p x => means N p x (R p)) ps xs -> forall r r',
    eval r (join a i q) = eval r' (join q i q) ->
    eval (fold_left (fun ret p => if sat_ck ds (xn p) then or_PFmla ret (and_PFmla (xn p) (mask p)) else ret)
       (map (fun px => proc_of N (fst px) (snd px)) (combine ps xs)) r) (join a i q) =
    eval (fold_left (fun ret p => if sat_ck ds (xn p) then or_PFmla ret (and_PFmla (xn p) (mask p)) else ret)
       (map (fun px => proc_of N (fst px) (snd px)) (combine ps xs)) r') (join q i q)).
  { clear H xs. intros ps xs H. induction H as [|p x ps xs H HF IH]; intros r r' E; cbn [combine map fold_left]; auto.
    apply IH. destruct (sat_ck ds (xn _)); auto. rewrite !eval_or, !eval_and, E. f_equal. 
    destruct H as ((W & TX & WO & MK) & _). cbn [fst snd] in *. f_equal.
    - apply (trans_eval _ _ TX); auto.
    - apply iff_eqb. fold (meaning (mask (proc_of N p x)) a i q). fold (meaning (mask (proc_of N p x)) q i q).
      rewrite (MK a i q), (MK q i q) by auto. tauto. }
  apply (G _ _ H). reflexivity.
Qed.

Lemma light_union : forall a, a < actions_in (kinds N) -> representative_action_index (kinds N) a = Some a ->
  forall s t, ok s -> ok t ->
  (steps (action_pfmla_light N a) s t <->
   (exists p, In p (pcs N) /\ class_move N a p s t) /\
   (deterministic_kind N a -> ~ exists p r, In p (pcs N) /\ ok r /\ class_move N a p r s)).
Proof.
  intros a Ha Hr s t S T. unfold action_pfmla_light. cbv zeta.
  assert (G : forall l, (forall r, In r l -> r < actions_in (kinds N)) -> forall x (R : list nat -> list nat -> Prop), trans_fmla ds x ->
     (forall s t, ok s -> ok t -> (steps x s t <-> R s t)) ->
     trans_fmla ds (fold_left (fun x r => or_PFmla x (make_action_pfmla N r)) l x) /\
     forall s t, ok s -> ok t -> (steps (fold_left (fun x r => or_PFmla x (make_action_pfmla N r)) l x) s t <->
       R s t \/ exists r p, In r l /\ In p (pcs N) /\ move N r p s t)).
  { clear s t S T. induction l as [|r l IH]; intros Hl x R TX EX; cbn [fold_left].
    - split; auto. intros s t S T. rewrite EX by auto. split; auto. intros [H|(r & p & [] & _)]; auto.
    - assert (Hrr : r < actions_in (kinds N)) by (apply Hl; cbn; auto).
      pose proof (denotes_action N HN r Hrr) as D.
      destruct (IH (fun q Hq => Hl q (or_intror Hq)) (or_PFmla x (make_action_pfmla N r)) (fun s t => R s t \/ exists p, In p (pcs N) /\ move N r p s t)) as (I1 & I2).
      + pose proof (denotes_trans _ _ D) as TD. intros b b' i q B B' I Q. specialize (TX b b' i q B B' I Q). specialize (TD b b' i q B B' I Q).
        unfold meaning in *. unfold make_action_pfmla. rewrite !eval_or, !orb_true_iff, TX, TD. tauto.
      + intros s t S T. rewrite <- (denotes_union N HN _ _ D s t S T), <- EX by auto. unfold steps, meaning, make_action_pfmla.
        rewrite eval_or, orb_true_iff. tauto.
      + split; auto. intros s t S T. rewrite I2 by auto. split.
        * intros [[H|(p & Hp & M)]|(q & p & Hq & Hp & M)]; [auto|right; exists r, p; cbn; auto|right; exists q, p; cbn; auto].
        * intros [H|(q & p & [<-|Hq] & Hp & M)]; [auto|left; right; eauto|right; exists q, p; auto]. }
  destruct (G (represented_actions (kinds N) a) (fun r Hr' => proj1 (proj1 (represented_iff _ _ _) Hr')) (Cst false) (fun _ _ => False)) as (TX & EX).
  { intros b b' i q _ _ _ _. unfold meaning. cbn. tauto. }
  { intros u w _ _. unfold steps, meaning. cbn. split; [discriminate|tauto]. }
  set (x := fold_left _ _ _) in *. clearbody x.
  assert (EC : forall s t, ok s -> ok t -> (steps x s t <-> exists p, In p (pcs N) /\ class_move N a p s t)).
  { intros u w U W. rewrite EX by auto. split.
    - intros [[]|(r & p & Hin & Hp & M)]. exists p. split; auto. apply class_iff; eauto.
    - intros (p & Hp & M). apply class_iff in M; auto. destruct M as (r & Hin & M). right. eauto. }
  pose proof (det_iff N a Ha) as DI. destruct (random_write_exists (kind_of_action N a)).
  - rewrite EC by auto. split; [|tauto]. intros H. split; auto. intros D. apply DI in D. discriminate.
  - unfold steps at 1, meaning. rewrite eval_nimp, andb_true_iff, negb_true_iff, <- not_true_iff_false.
    fold (meaning x s t s). fold (steps x s t). rewrite EC by auto.
    rewrite (state_eval ds _ (img_is_state ds x TX) s t s S T S).
    fold (meaning (img_PFmla ds x) s s s). fold (holds (img_PFmla ds x) s). rewrite img_state by auto.
    assert (EI : (exists u, ok u /\ steps x u s) <-> exists p r, In p (pcs N) /\ ok r /\ class_move N a p r s).
    { split.
      - intros (u & U & X). apply EC in X; auto. destruct X as (p & Hp & M). exists p, u. auto.
      - intros (p & u & Hp & U & M). exists u. split; auto. apply EC; auto. exists p. auto. }
    rewrite EI. tauto.
Qed.

Lemma denotes_process : forall xs R, denotes N xs R -> forall j p s t, nth_error (pcs N) j = Some p -> ok s -> ok t ->
  (process_step N xs j s t <-> R p s t).
Proof.
  intros xs R H j p s t Hj S T. unfold process_step, procs_of. unfold denotes in H. revert j Hj.
  induction H as [|p0 x ps xs H HF IH]; intros j Hj; destruct j; cbn in *; try discriminate.
  - injection Hj as ->. destruct H as (_ & H). rewrite <- H by auto. split.
    + intros (q & E & X). injection E as <-. auto.
    + intros X. eauto.
  - apply IH; auto.
Qed.
End Net.
