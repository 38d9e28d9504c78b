From Coq Require Import List Arith Bool Lia.
From Verif Require Import FinLib Radix FmlaModel FmlaSpec FmlaProofs FmlaProofs2 FmlaProofs3 FmlaProofs4
  ActModel ActSpec NetModel NetSpec NetProofs NetProofs2 NetProofs3 SyncSpec SyncProofs.
Import ListNotations.

Section Sync.
Variable N : network.
Notation ds := (vdoms N).
Notation ok := (ok (vdoms N)).
Hypothesis HN : net_ok N.
Variable acts : list nat.
Hypothesis ONCE : ~ written_twice N.
Hypothesis STEADY : forall x, ~ fickle N x.

Lemma nodup_own : NoDup (flat_map (own_wvbls N) (pcs N)).
Proof.
  destruct (ListDec.NoDup_dec Nat.eq_dec (flat_map (own_wvbls N) (pcs N))) as [H|H]; auto. exfalso. apply ONCE. apply twice_iff; auto.
Qed.
Lemma own_apart : forall p q x, In p (pcs N) -> In q (pcs N) -> own N p x -> own N q x -> p = q.
Proof.
  intros p q x Hp Hq O1 O2. apply own_iff in O1, O2; auto. pose proof nodup_own as ND. revert ND Hp Hq. generalize (pcs N). intros l.
  induction l as [|r l IH]; intros ND Hp Hq; [destruct Hp|]. cbn in ND.
  assert (SP : NoDup (flat_map (own_wvbls N) l) /\ forall y, In y (own_wvbls N r) -> ~ In y (flat_map (own_wvbls N) l)).
  { clear - ND. induction (own_wvbls N r) as [|y w IHw]; cbn in *; [split; auto|]. inversion ND; subst. destruct (IHw H2) as (B & C).
    rewrite in_app_iff in H1. split; auto. intros z [<-|Z]; auto. }
  destruct SP as (B & C). destruct Hp as [<-|Hp], Hq as [<-|Hq]; auto.
  - exfalso. apply (C x O1). apply in_flat_map. eauto.
  - exfalso. apply (C x O2). apply in_flat_map. eauto.
Qed.

Lemma agrees : forall s t, ok s -> ok t -> (forall x, x < length ds -> nth x t 0 = nth x s 0) -> t = s.
Proof.
  intros s t S T H. apply nth_ext with (d := 0) (d' := 0); [rewrite (ok_length _ _ S), (ok_length _ _ T); auto|].
  intros k K. apply H. rewrite <- (ok_length _ _ T). auto.
Qed.
Lemma differ : forall s t, ok s -> ok t -> t <> s -> exists x, x < length ds /\ nth x t 0 <> nth x s 0.
Proof.
  intros s t S T NE. destruct (existsb (fun v => negb (nth v t 0 =? nth v s 0)) (seq 0 (length ds))) eqn:X.
  - apply existsb_exists in X. destruct X as (v & V & X). apply in_seq in V. exists v. split; [lia|]. apply negb_true_iff, Nat.eqb_neq in X. auto.
  - exfalso. apply NE. apply agrees; auto. intros x L. destruct (Nat.eqb_spec (nth x t 0) (nth x s 0)) as [|D]; auto. exfalso.
    apply not_true_iff_false in X. apply X. apply existsb_exists. exists x. split; [apply in_seq; lia|]. apply negb_true_iff, Nat.eqb_neq. auto.
Qed.
Lemma frame : forall p s t, can_move N acts p s t -> forall x, x < length ds -> ~ own N p x -> nth x t 0 = nth x s 0.
Proof. intros p s t (a & _ & (r & _ & _ & _ & [_ _ F _ _])) x L O. apply F; auto. Qed.

Lemma alone : forall p s t, In p (pcs N) -> ok s -> ok t -> can_move N acts p s t -> t <> s -> joint_step N acts false s t.
Proof.
  intros p s t Hp S T M NE. constructor.
  - intros q Hq. destruct (existsb (fun x => existsb (Nat.eqb x) (own_wvbls N q)) (own_wvbls N p)) eqn:X.
    + left. apply existsb_exists in X. destruct X as (x & X1 & X2). apply eqb_in in X2. apply own_iff in X1, X2; auto.
      rewrite <- (own_apart p q x Hp Hq X1 X2). exists t. split; auto.
    + right. split; [|discriminate]. intros x O. apply (frame p s t M).
      * destruct O as (i & I & _ & <-). apply (no_id _ HN q i Hq I).
      * intros O'. apply own_iff in O, O'; auto. apply not_true_iff_false in X. apply X. apply existsb_exists. exists x. split; auto. apply eqb_in. auto.
  - intros x L NO. apply (frame p s t M); auto.
  - destruct (differ s t S T NE) as (x & L & D). eauto.
Qed.

Lemma combine_moves : forall s, ok s -> (forall p, In p (pcs N) -> (exists t, ok t /\ can_move N acts p s t) \/ ~ exists t, ok t /\ can_move N acts p s t) ->
  forall p0 t0, In p0 (pcs N) -> ok t0 -> can_move N acts p0 s t0 -> t0 <> s -> exists t, ok t /\ joint_step N acts true s t.
Proof.
  intros s S DEC p0 t0 Hp0 T0 M0 NE.
  assert (C : forall l, incl l (pcs N) -> exists t, ok t /\
     (forall p, In p l -> takes_part N acts p s t \/ (stands_still N p s t /\ ~ exists t', ok t' /\ can_move N acts p s t')) /\
     (In p0 l -> forall x, own N p0 x -> nth x t 0 = nth x t0 0) /\
     (forall x, x < length ds -> (forall p, In p l -> ~ own N p x) -> nth x t 0 = nth x s 0)).
  { induction l as [|p l IH]; intros I.
    - exists s. split; auto. split; [intros p []|]. split; [intros []|]. auto.
    - destruct IH as (t & T & H1 & H2 & H3); [intros y Y; apply I; right; auto|]. assert (Hp : In p (pcs N)) by (apply I; left; auto).
      assert (W : forall x, own N p x -> x < length ds) by (intros x (i & J & _ & <-); apply (no_id _ HN p i Hp J)).
      assert (CH : exists u, ok u /\ (can_move N acts p s u \/ (u = s /\ ~ exists t', ok t' /\ can_move N acts p s t')) /\ (p = p0 -> u = t0)).
      { destruct (existsb (fun x => existsb (Nat.eqb x) (own_wvbls N p0)) (own_wvbls N p)) eqn:X.
        - apply existsb_exists in X. destruct X as (x & X1 & X2). apply eqb_in in X2. apply own_iff in X1, X2; auto.
          pose proof (own_apart p p0 x Hp Hp0 X1 X2) as ->. exists t0. auto.
        - assert (NP : p <> p0).
          { intros ->. destruct (differ s t0 S T0 NE) as (x & L & D). apply D. apply (frame p0 s t0 M0); auto. intros O.
            apply not_true_iff_false in X. apply X. apply existsb_exists. exists x. apply own_iff in O; auto. split; auto. apply eqb_in. auto. }
          destruct (DEC p Hp) as [(u & U & M)|NM]; [exists u|exists s]; repeat split; auto; contradiction. }
      destruct CH as (u & U & CH & P0).
      exists (mix N (own_wvbls N p) t u). split; [apply ok_mix; auto|].
      assert (IN : forall x, own N p x -> nth x (mix N (own_wvbls N p) t u) 0 = nth x u 0).
      { intros x O. rewrite nth_mix by auto. apply own_iff in O; auto. rewrite (proj2 (eqb_in x _) O). auto. }
      assert (OUT : forall x, x < length ds -> ~ own N p x -> nth x (mix N (own_wvbls N p) t u) 0 = nth x t 0).
      { intros x L O. rewrite nth_mix by auto. destruct (existsb (Nat.eqb x) (own_wvbls N p)) eqn:X; auto. apply eqb_in, own_iff in X; auto. contradiction. }
      assert (PART : takes_part N acts p s (mix N (own_wvbls N p) t u) \/ (stands_still N p s (mix N (own_wvbls N p) t u) /\ ~ exists t', ok t' /\ can_move N acts p s t')).
      { destruct CH as [M|(-> & NM)].
        - left. exists u. split; auto. split; auto. intros x [O|F]; [apply IN; auto|destruct (STEADY x F)].
        - right. split; [|auto]. intros x O. apply IN. auto. }
      split; [|split].
      + intros q [<-|Q]; [exact PART|].
        destruct (existsb (fun x => existsb (Nat.eqb x) (own_wvbls N q)) (own_wvbls N p)) eqn:X.
        * apply existsb_exists in X. destruct X as (x & X1 & X2). apply eqb_in in X2. assert (Hq : In q (pcs N)) by (apply I; right; auto). apply own_iff in X1, X2; auto.
          rewrite <- (own_apart p q x Hp Hq X1 X2). exact PART.
        * assert (Hq : In q (pcs N)) by (apply I; right; auto).
          assert (SAME : forall x, own N q x -> nth x (mix N (own_wvbls N p) t u) 0 = nth x t 0).
          { intros x O. apply OUT; [destruct O as (i & J & _ & <-); apply (no_id _ HN q i Hq J)|]. intros O'. apply own_iff in O, O'; auto.
            apply not_true_iff_false in X. apply X. apply existsb_exists. exists x. split; auto. apply eqb_in. auto. }
          destruct (H1 q Q) as [(t' & T' & M & E)|(ST & NM)].
          -- left. exists t'. split; auto. split; auto. intros x [O|F]; [rewrite SAME by auto; auto|destruct (STEADY x F)].
          -- right. split; auto. intros x O. rewrite SAME by auto. auto.
      + intros HI x O. destruct (in_dec Nat.eq_dec x (own_wvbls N p)) as [Y|Y].
        * apply own_iff in Y; auto. rewrite IN by auto. pose proof (own_apart p p0 x Hp Hp0 Y O) as E. rewrite (P0 E). auto.
        * rewrite OUT.
          -- destruct HI as [<-|HI]; [apply own_iff in O; auto; contradiction|]. auto.
          -- destruct O as (i & J & _ & <-). apply (no_id _ HN p0 i Hp0 J).
          -- intros O'. apply own_iff in O'; auto.
      + intros x L NO. rewrite OUT; auto.
        * apply H3; auto. intros q Q. apply NO. right. auto.
        * apply NO. left. auto. }
  destruct (C (pcs N) (incl_refl _)) as (t & T & H1 & H2 & H3). exists t. split; auto. constructor.
  - intros p Hp. destruct (H1 p Hp) as [H|(H & H')]; auto.
  - exact H3.
  - destruct (differ s t0 S T0 NE) as (x & L & D). exists x. split; auto. split; auto.
    destruct (in_dec Nat.eq_dec x (own_wvbls N p0)) as [Y|Y].
    + apply own_iff in Y; auto. rewrite (H2 Hp0 x Y). auto.
    + exfalso. apply D. apply (frame p0 s t0 M0); auto. intros O. apply Y. apply own_iff; auto.
Qed.

Lemma some_moves : forall fully s t, ok s -> ok t -> joint_step N acts fully s t -> exists p t', In p (pcs N) /\ ok t' /\ can_move N acts p s t' /\ t' <> s.
Proof.
  intros fully s t S T [E R (x & L & _ & D)].
  assert (O : exists p, In p (pcs N) /\ own N p x).
  { destruct (existsb (fun p => existsb (Nat.eqb x) (own_wvbls N p)) (pcs N)) eqn:X.
    - apply existsb_exists in X. destruct X as (p & P & X). apply eqb_in, own_iff in X; auto. eauto.
    - exfalso. apply D. apply R; auto. intros p Hp O. apply not_true_iff_false in X. apply X. apply existsb_exists. exists p. split; auto. apply eqb_in, own_iff; auto. }
  destruct O as (p & Hp & O). destruct (E p Hp) as [(t' & T' & M & EQ)|(ST & _)]; [|exfalso; apply D; apply ST; auto].
  exists p, t'. repeat split; auto. intros ->. apply D. apply EQ. auto.
Qed.
End Sync.
