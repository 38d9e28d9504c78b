(** Completeness, one instance: revising an instance loses no solution. *)
From Coq Require Import List Arith Bool Lia Permutation.
From Verif Require Import FinLib ReachModel ReachSpec ReachProofs StabModel StabProofs StabProofs2 StabProofs3 StabProofs4 RankModel RankSpec RankProofs
  ConflictModel ConflictSpec ConflictProofs SearchModel SearchSpec SearchProofs SearchProofs2 SearchProofs3 SearchProofs4.
Import ListNotations.

(** Every state between cycles has a predecessor of that kind. *)
Lemma between_pred : forall St (R : St -> St -> Prop) A s, between_cycles St R A s ->
  exists t, between_cycles St R A t /\ R t s.
Proof.
  intros St R A s (c1 & c2 & H1 & (n & H2) & (m & H3) & (k & H4) & H5).
  assert (X : exists j, steps St R (S j) c1 s).
  { exists (n + m). change (S (n + m)) with (S n + m). apply steps_app with (u := c1); auto. }
  destruct X as (j & X). apply steps_S_r in X. destruct X as (t & X1 & X2). exists t. split; auto.
  exists c1, c2. split; auto. split; [exists n; auto|]. split; [exists j; auto|]. split; auto.
  exists (S k). apply steps_S. exists s. auto.
Qed.

Section One.
Variable I : inst.
Hypothesis Hp : proper I.
Hypothesis Hpl : plain I.
Let Hall := pr_all I Hp.
Let Hdec := dec I.

Lemma moves_mono : forall A B, incl A B -> forall x y, moves I A x y -> moves I B x y.
Proof. intros A B H x y (a & H1 & H2). exists a. auto. Qed.

Lemma legit_dec : forall x, legit I x \/ ~ legit I x.
Proof.
  intros x. unfold legit, assumed. destruct (invariant _ (sysm I) x), (closed_assume _ (sysm I) x);
    [left; auto|right|right|right]; intros (H1 & H2); discriminate.
Qed.

Lemma assumed_dec : forall x, assumed I x \/ ~ assumed I x.
Proof. intros x. unfold assumed. destruct (closed_assume _ (sysm I) x); [left; auto|right; discriminate]. Qed.

Lemma moves_dec : forall A x, (exists y, moves I A x y) \/ (forall y, ~ moves I A x y).
Proof.
  intros A x. destruct (sources _ (dec I) (univ I) (xn_of I A) x) eqn:E.
  - left. apply (sources_spec _ _ _ Hall) in E. destruct E as (y & E). exists y. apply (xn_of_spec I Hp). auto.
  - right. intros y Hy. assert (X : sources _ (dec I) (univ I) (xn_of I A) x = true).
    { apply (sources_spec _ _ _ Hall). exists y. apply (xn_of_spec I Hp). auto. }
    congruence.
Qed.

(** ** What a stabilising set of actions has *)
Section Stabilising.
Variable S : list nat.
Hypothesis HS : stabilises I S.

Lemma stab_progress : forall x, assumed I x -> ~ legit I x -> exists y, moves I S x y.
Proof.
  intros x Ha Hl. destruct (moves_dec S x) as [H|H]; auto. exfalso. apply Hl.
  destruct (st_converges I S HS) as (_ & C). apply (C (fun _ => x) 0); auto. intros i Hi. lia.
Qed.

Lemma stab_cycle : forall x, assumed I x -> on_cycle _ (moves I S) x -> legit I x.
Proof. apply converges_cycle. apply (st_converges I S HS). Qed.

Lemma stab_between : forall A x, incl A S -> between_cycles _ (moves I A) (assumed I) x -> legit I x.
Proof.
  intros A x HA (c1 & c2 & H1 & H2 & H3 & _).
  assert (Hl : legit I c1) by (apply stab_cycle; auto; apply (cycle_mono _ (moves I A)); auto; apply moves_mono; auto).
  apply (closed_reaches _ (moves I S) (legit I) (st_legit_closed I S HS) c1); auto.
  destruct H3 as (n & H3). exists n. revert H3. apply steps_mono. apply moves_mono; auto.
Qed.

(** Part of the transitions is enough to reach a legitimate state if no illegitimate state is stuck. *)
Lemma stab_near : forall A, incl A S -> (forall x, assumed I x -> ~ legit I x -> exists y, moves I A x y) ->
  forall x, assumed I x -> exists j, ReachSpec.near _ (moves I A) (assumed I) (legit I) j x.
Proof.
  intros A HA Hgo x Hx.
  assert (X : forall n x, assumed I x -> (exists j, ReachSpec.near _ (moves I A) (assumed I) (legit I) j x) \/
     exists f, f 0 = x /\ run _ (moves I A) f n).
  { induction n as [|n IH]; intros y Hy.
    - right. exists (fun _ => y). split; auto. intros i Hi. lia.
    - destruct (legit_dec y) as [Hl|Hl].
      + left. exists 0, 0, (fun _ => y). split; auto. split; auto. split; auto. split; [intros i Hi; lia|].
        intros i _. auto.
      + destruct (Hgo y Hy Hl) as (z & Hz).
        assert (Haz : assumed I z) by (apply (st_assumed_closed I S HS y z); auto; apply (moves_mono A); auto).
        destruct (IH z Haz) as [(j & m & f & F1 & F2 & (F3 & F3') & F4)|(f & F1 & F2)].
        * left. exists (Datatypes.S j), (Datatypes.S m), (fun i => match i with 0 => y | Datatypes.S i' => f i' end).
          split; [lia|]. split; auto. split; auto. split.
          -- intros [|i] Hi; [rewrite F2; auto|apply F3; lia].
          -- intros [|i] Hi; auto. apply F3'. lia.
        * right. exists (fun i => match i with 0 => y | Datatypes.S i' => f i' end). split; auto.
          intros [|i] Hi; [rewrite F1; auto|apply F2; lia]. }
  destruct (X (length (univ I)) x Hx) as [H|(f & F1 & F2)]; auto.
  exists (length (univ I)), (length (univ I)), f. split; auto. split; auto.
  assert (Hrun : forall i, i <= length (univ I) -> assumed I (f i)).
  { induction i as [|i IHi]; intros Hi; [rewrite F1; auto|].
    apply (st_assumed_closed I S HS (f i)); [apply IHi; lia|]. apply (moves_mono A S HA), F2. lia. }
  split; [split; auto|].
  assert (Hr : run _ (moves I S) f (length (univ I))) by (intros i Hi; apply (moves_mono A); auto).
  refine (long_run_in _ (dec I) (univ I) Hall (moves I S) (assumed I) (legit I)
           (st_assumed_closed I S HS) (st_legit_closed I S HS) stab_cycle f _ _ Hr _); [rewrite F1|]; auto.
Qed.
End Stabilising.

(** Actions enabled only where others are can be left out. *)
Lemma stab_drop : forall S S' given, stabilises I S -> incl S' S -> incl given S' ->
  behav _ (sysm I) <> FutureActiveShadow -> style _ (sysm I) <> FutureAndActiveShadow ->
  (forall x y, legit I x -> specified I x y -> moves I given x y) ->
  (forall a x y, In a S -> axn I a x y = true -> assumed I x -> exists z, moves I S' x z) ->
  stabilises I S'.
Proof.
  intros S S' given HS Hi Hg N1 N2 Hsh Hd. pose proof HS as [B1 B2 B3 B4 B5 B6 B7 B8].
  pose proof (moves_mono S' S Hi) as M.
  assert (C1 : closed _ (moves I S') (assumed I)) by (intros x y H1 H2; apply (B3 x y); auto).
  assert (C2 : closed _ (moves I S') (legit I)) by (intros x y H1 H2; apply (B4 x y); auto).
  split; auto.
  - intros x H1 H2. apply (B2 x H1). auto.
  - apply (converges_to _ (dec I) (univ I) Hall); auto.
    + apply legit_dec.
    + intros c Hc Hy. apply (stab_cycle S HS); auto. apply (cycle_mono _ (moves I S')); auto.
    + intros x Hx Hl. destruct (stab_progress S HS x Hx Hl) as (y & a & Ha & Hy). apply (Hd a x y); auto.
  - intros Hs x y Hl. split.
    + intros H. apply (B6 Hs x y Hl). auto.
    + intros H. apply (moves_mono given); auto.
  - intros [H|H]; contradiction.
  - intros H x Ha Hc. apply (B8 H x Ha). apply (cycle_mono _ (moves I S')); auto.
Qed.

(** ** The set of cyclic states *)
Definition keeps_assumed (A : list nat) : Prop := closed _ (moves I A) (assumed I).

Lemma between_iff : forall (R Q : St I -> St I -> Prop) A s, (forall x y, R x y <-> Q x y) ->
  (between_cycles _ R A s <-> between_cycles _ Q A s).
Proof.
  assert (X : forall (R Q : St I -> St I -> Prop) A s, (forall x y, R x y <-> Q x y) ->
    between_cycles _ R A s -> between_cycles _ Q A s).
  { intros R Q A s H (c1 & c2 & H1 & H2 & (n & H3) & (m & H4) & H5). exists c1, c2. split; auto.
    split; [apply (cycle_iff I R Q c1 H); auto|].
    split; [exists n; revert H3; apply steps_mono; intros a b; apply H|].
    split; [exists m; revert H4; apply steps_mono; intros a b; apply H|]. apply (cycle_iff I R Q c2 H); auto. }
  intros R Q A s H. split; apply X; auto. intros x y. symmetry. auto.
Qed.

Lemma lo_cycles_spec : forall acts l hinv0 r, (forall x y, l x y = true <-> moves I acts x y) ->
  keeps_assumed acts -> lo_cycles I acts l hinv0 = r ->
  exists scc, r = Good scc /\ forall s, scc s = true <-> between_cycles _ (moves I acts) (assumed I) s.
Proof.
  intros acts l hinv0 r Hl Hk. destruct Hpl as [P1 P2 P3 P4 P5]. unfold lo_cycles. rewrite P3, P5.
  assert (Hf : length (univ I) < fuel_of I) by (unfold fuel_of; lia).
  pose proof (cycle_ck_layers (St I) (dec I) (univ I) Hall (fuel_of I) l (Some hinv0) 0
    (Some (closed_assume _ (sysm I))) Hf) as H. cbv zeta in H.
  destruct H as [(n & _ & _ & H & _)|(scc & m & H & Hscc & _)].
  - apply closed_cycle_closed. intros x y H1 H2. apply (Hk x y); auto. apply Hl. auto.
  - lia.
  - rewrite H. cbn [cyc_scc cyc_layers]. cbn [Nat.ltb Nat.leb andb]. intros <-. exists scc. split; auto.
    intros s. rewrite Hscc. apply between_iff. exact Hl.
Qed.

(** Stuck or not: without a solution nothing can be said about Stuck, but Bad for
    too many layers does not occur. *)
Lemma lo_cycles_not_bad : forall acts l hinv0, lo_cycles I acts l hinv0 <> Bad.
Proof.
  intros acts l hinv0. destruct Hpl as [P1 P2 P3 P4 P5]. unfold lo_cycles. rewrite P3, P5.
  destruct (cycle_ck _ _ _ _ _ _ _ _) as [c|]; [|discriminate]. cbn [Nat.ltb Nat.leb andb]. discriminate.
Qed.
End One.
