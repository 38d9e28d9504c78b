(** Every expression has a text that is read with its meaning. *)
From Coq Require Import String List Arith Bool ZArith Lia.
From Verif Require Import FmlaModel IntModel IntSpec ExprModel ExprSpec ActModel NetModel CmdModel ParseModel ParseSpec ParseProofs ParseProofs2 ParseProofs3 ParseProofs4.
Import ListNotations.
Local Open Scope list_scope.

Lemma isint_enclosed : forall e, isint (enclosed e) = isint e.
Proof. intros e; unfold enclosed; destruct (isint e) eqn:E; simpl; auto. Qed.
Lemma rank_enclosed : forall e, rank (enclosed e) = 0.
Proof. intros e; unfold enclosed; destruct (isint e); auto. Qed.
Lemma iff_enclosed : forall e, is_iff (enclosed e) = false.
Proof. intros e; unfold enclosed; destruct (isint e); auto. Qed.
Lemma open_enclosed : forall e, open (enclosed e) = false.
Proof. intros e; unfold enclosed; destruct (isint e); auto. Qed.
Lemma fit_enclosed : forall e k, fit k (enclosed e).
Proof. intros e k; apply fit_rank; rewrite rank_enclosed; lia. Qed.
Lemma isint_bracketed : forall e, isint (bracketed e) = isint e.
Proof. induction e; simpl; auto; rewrite isint_enclosed; auto. Qed.
Lemma raw_enclosed : forall preds e, raw preds e -> raw preds (enclosed e).
Proof. intros preds e H; unfold enclosed; destruct (isint e) eqn:E; simpl; auto. Qed.
Lemma apart_enclosed : forall e, iffs_apart e -> iffs_apart (enclosed e).
Proof. intros e H; unfold enclosed; destruct (isint e); auto. Qed.
Lemma constant_int : forall e, constant e -> isint e = true.
Proof. induction e; simpl; intros; try tauto. Qed.
Lemma craw_bracketed : forall e, constant e -> craw (bracketed e) /\ rank (bracketed e) <= 4.
Proof.
  assert (D : forall e, constant e -> craw (bracketed e) /\ rank (bracketed e) <= 4 -> craw (enclosed (bracketed e))).
  { intros e H (H1 & H2). unfold enclosed. rewrite isint_bracketed, constant_int by auto. simpl; auto. }
  induction e; simpl; intros H; try tauto; try (split; [exact I|lia]).
  - split; [|lia]. apply IHe in H; tauto.
  - split; [|lia]. split; [auto|]. rewrite rank_enclosed; lia.
  - destruct H. repeat split; auto; [|destruct op; lia]. unfold bin_fit. rewrite !rank_enclosed. destruct op; lia.
Qed.
Lemma not_int_enclosed : forall preds e j, not_int preds (enclosed e) (isint (enclosed e)) j = negb (isint e).
Proof. intros preds e j; rewrite isint_enclosed. unfold not_int, enclosed. destruct (isint e); reflexivity. Qed.
Lemma raw_bracketed : forall preds e, kinded e -> raw preds (bracketed e) /\ iffs_apart (bracketed e).
Proof.
  intros preds; induction e; simpl; intros H; repeat match goal with H : _ /\ _ |- _ => destruct H end;
  repeat match goal with IH : kinded ?e -> _, H : kinded ?e |- _ => specialize (IH H); destruct IH end; auto;
  rewrite ?isint_bracketed, ?rank_enclosed, ?iff_enclosed, ?open_enclosed, ?not_int_enclosed, ?isint_bracketed;
  try (repeat split; auto using raw_enclosed, apart_enclosed, fit_enclosed; try lia; fail).
  - (* xor *) repeat split; auto using raw_enclosed, apart_enclosed; try lia. rewrite H; reflexivity.
  - repeat split; auto using raw_enclosed, apart_enclosed; try lia. destruct c; auto; rewrite H; reflexivity.
  - assert (HC : craw (enclosed (bracketed e1)) /\ rank (enclosed (bracketed e1)) <= 4 /\ iffs_apart (enclosed (bracketed e1))).
    { destruct (craw_bracketed e1 H) as [C1 C2]. unfold enclosed. rewrite isint_bracketed, constant_int by auto.
      simpl; repeat split; auto; try lia. clear - C1. induction (bracketed e1); simpl in *; try tauto. }
    destruct HC as (C1 & C2 & C3). repeat split; auto; lia.
  - repeat split; auto using raw_enclosed, apart_enclosed. unfold bin_fit. rewrite !rank_enclosed. destruct op; lia.
Qed.

Section Meaning.
Variable G : scope.
Lemma truth_enclosed : forall b e s, truth G b (enclosed e) s = truth G b e s.
Proof. intros b e s; unfold enclosed; destruct (isint e); reflexivity. Qed.
Lemma value_not_int : forall e b s, isint e = false -> value_of G b e s = None.
Proof. induction e; simpl; intros b s H; try discriminate; auto. rewrite IHe; auto. Qed.
Lemma value_enclosed : forall b e s, value_of G b (enclosed e) s = value_of G b e s.
Proof. intros b e s; unfold enclosed; destruct (isint e) eqn:E; [reflexivity|]. simpl; rewrite value_not_int; auto. Qed.
Lemma bracketed_means : forall e b s, truth G b (bracketed e) s = truth G b e s /\ value_of G b (bracketed e) s = value_of G b e s.
Proof.
  induction e; intros b s; simpl; rewrite ?truth_enclosed, ?value_enclosed;
  repeat match goal with IH : forall b s, truth G b (bracketed ?e) s = _ /\ _ |- context [bracketed ?e] =>
    match goal with
    | |- context [truth G b (bracketed e) s] => rewrite (proj1 (IH b s))
    | |- context [value_of G b (bracketed e) s] => rewrite (proj2 (IH b s))
    end end; auto.
  split; [|reflexivity]. destruct (value_of G b e1 s) as [k|]; [|reflexivity]. destruct (Z_lt_dec 0 k); [|reflexivity].
  f_equal; f_equal. apply map_ext. intros i. apply IHe2.
Qed.
End Meaning.
