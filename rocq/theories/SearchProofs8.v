(** Completeness, [revise_actions]: with one or two instances no solution is lost. *)
From Coq Require Import List Arith Bool Lia Permutation.
From Verif Require Import FinLib ReachModel ReachSpec ReachProofs StabModel StabProofs StabProofs2 StabProofs3 StabProofs4 RankModel RankSpec RankProofs
  ConflictModel ConflictSpec ConflictProofs SearchModel SearchSpec SearchProofs SearchProofs2 SearchProofs3 SearchProofs4 SearchProofs5 SearchProofs6 SearchProofs7.
Import ListNotations.

Section Complete.
Variable place : fset -> list fset -> nat.
Variable clash : nat -> nat -> bool.
Variable insts : list inst.
Variable given : list nat.
Variable conflicts0 : list (list nat).
Variable allowed : nat -> Prop.
Hypothesis Htwo : length insts <= 2.
Hypothesis Hne : insts <> [].
Hypothesis Hproper : forall I, In I insts -> proper I.
Hypothesis Hplain : forall I, In I insts -> plain I.
Hypothesis Hbehav : forall I, In I insts -> behav _ (sysm I) <> FutureActiveShadow.
Hypothesis Hstyle : forall I, In I insts -> style _ (sysm I) <> FutureAndActiveShadow.
Hypothesis Hdrag : forall I, In I insts -> forall a, drags_shadow I a = false.
Hypothesis Hsh : forall I, In I insts -> forall x y, legit I x -> specified I x y -> moves I given x y.
Hypothesis Hharm : forall I, In I insts -> forall a, allowed a -> In a given \/ harmless I a.

Notation sol := (solution insts given conflicts0 clash).
Variable B : list nat.
Hypothesis HB : sol B.

(** The conflicts exclude no solution. *)
Definition safe (f : family) : Prop := built place f /\ forall A, sol A -> ~ rejected (sets f) A.

Notation adds_at r i := (nth i (r_adds r) []).
Notation dels_at r i := (nth i (r_dels r) []).

Definition checked' (p : part) : Prop := checked (projT1 p) (projT2 p).

(** * What holds whether or not the level is consistent with a solution *)
Record pass1 (U0 : list nat) (np : list bool) (i : nat) (f : family) (r : round) : Prop := mkPass1 {
  q_inv : exists U, invar insts allowed U0 i r U;
  q_safe : safe f;
  q_np : map p_no_partial (r_parts r) = np;
  q_checked : forall j p, nth_error (r_parts r) j = Some p ->
    checked' p \/ (waits r j = true /\ (i <= j \/ r_keep r = true))
}.

Lemma in_B_or : forall I a, In I insts -> allowed a -> In a B \/ harmless I a.
Proof. intros I a HI Ha. destruct (Hharm I HI a Ha) as [X|X]; auto. left. apply (so_given _ _ _ _ _ HB). auto. Qed.

Lemma alone_safe : forall f p adds dels f' r, In (projT1 p) insts -> shaped p -> safe f ->
  (forall a, In a (p_actions p) \/ In a adds -> allowed a) ->
  alone_part place clash f p adds dels = (f', r) -> safe f'.
Proof.
  intros f (I & p) adds dels f' r HI Hs (Hf & Hrej) Ha E. cbn [projT1 projT2] in *.
  assert (X : exists r', alone place clash I f p adds dels = (f', r')).
  { unfold alone_part in E. cbn [projT1 projT2] in E. destruct (alone place clash I f p adds dels) as (f1 & [(((q & a) & d) & rj)| |]);
      injection E as <- _; eauto. }
  destruct X as (r' & X).
  assert (Y : forall A, sol A -> built place f' /\ ~ rejected (sets f') A).
  { intros A HA. apply (alone_learns place clash I (Hproper I HI) (Hplain I HI) f A p adds dels f' r'); auto.
    - apply (so_stab _ _ _ _ _ HA I HI).
    - intros a H. destruct (Hharm I HI a) as [Z|[Z1 Z2]].
      + apply Ha. exact H.
      + left. apply (so_given _ _ _ _ _ HA). auto.
      + right. intros x y X1 (b & [<-|[]] & Hy). apply (Z2 x y); auto. }
  split; [apply (Y B HB)|]. intros A HA. apply (Y A HA).
Qed.

Lemma alone_part_checked : forall f p adds dels f' p' a d r, In (projT1 p) insts -> shaped p ->
  (forall a, In a (p_actions p) \/ In a adds -> allowed a) ->
  alone_part place clash f p adds dels = (f', Good (p', a, d, r)) -> checked' p' /\ p_no_partial p' = p_no_partial p.
Proof.
  intros f (I & p) adds dels f' p' a d r HI Hs Ha E. cbn [projT1 projT2] in *. unfold alone_part in E. cbn [projT1 projT2] in E.
  destruct (alone place clash I f p adds dels) as (f1 & [(((q & a1) & d1) & rj)| |]) eqn:E1; try discriminate.
  injection E as <- <- <- <- <-. split.
  - unfold checked'. cbn [projT1 projT2].
    apply (alone_checked place clash I (Hproper I HI) (Hplain I HI) given f B p adds dels f1 q a1 d1 rj); auto.
    + apply (so_stab _ _ _ _ _ HB I HI).
    + intros b Hb. apply in_B_or; auto.
  - apply (alone_revised place clash I (Hproper I HI)) in E1; auto. destruct E1 as (_ & E1). apply (rv_partial _ _ _ _ _ _ _ _ E1).
Qed.

Lemma waits_after : forall i r p' a d rejs j, i < length (r_adds r) -> j < length (r_adds r) ->
  i < length (r_dels r) -> j < length (r_dels r) -> j <> i ->
  waits r j = true \/ a <> [] \/ rejs <> [] -> waits (after i r p' a d rejs) j = true.
Proof.
  intros i r p' a d rejs j H1 H2 H3 H4 Hn H.
  assert (HA : forall x, In x a \/ In x (adds_at r j) -> waits (after i r p' a d rejs) j = true).
  { intros x Hx. unfold waits. assert (X : In x (adds_at (after i r p' a d rejs) j)) by (apply after_adds; auto; tauto).
    destruct (nth j (r_adds (after i r p' a d rejs)) []); [destruct X|]. cbn. rewrite orb_true_r. auto. }
  assert (HD : forall x, In x rejs \/ In x (dels_at r j) -> waits (after i r p' a d rejs) j = true).
  { intros x Hx. unfold waits. assert (X : In x (dels_at (after i r p' a d rejs) j)) by (apply after_dels; auto; tauto).
    destruct (nth j (r_dels (after i r p' a d rejs)) []); [destruct X|]. cbn. rewrite orb_true_r. auto. }
  destruct a as [|x a]; [|apply (HA x); left; left; auto].
  destruct rejs as [|y rejs]; [|apply (HD y); left; left; auto].
  destruct H as [H|[H|H]]; try congruence. unfold waits in H. apply orb_true_iff in H. destruct H as [H|H].
  - apply orb_true_iff in H. destruct H as [H|H].
    + unfold waits. rewrite after_force, H. auto.
    + destruct (adds_at r j) as [|x l] eqn:E; [discriminate|]. apply (HA x). right. left. auto.
  - destruct (dels_at r j) as [|x l] eqn:E; [discriminate|]. apply (HD x). right. left. auto.
Qed.

Lemma pass1_skip : forall U0 np i f r, pass1 U0 np i f r -> waits r i = false -> pass1 U0 np (S i) f r.
Proof.
  intros U0 np i f r [(U & H1) H2 H3 H4] Hw. split; auto.
  - exists U. apply invar_skip; auto.
  - intros j p Hj. destruct (H4 j p Hj) as [X|(X1 & X2)]; auto. right. split; auto. destruct X2 as [X2|X2]; auto.
    left. destruct (Nat.eq_dec i j); [subst; congruence|lia].
Qed.

Lemma invar_acts : forall U0 i r U j p, invar insts allowed U0 i r U -> nth_error (r_parts r) j = Some p ->
  forall a, In a (p_actions p) \/ In a (adds_at r j) -> allowed a.
Proof. intros U0 i r U j p H Hj a Ha. apply (iv_allowed _ _ _ _ _ _ H). apply (iv_same _ _ _ _ _ _ H j p Hj). auto. Qed.

Lemma pass1_step : forall U0 np i f r p f' p' a d rejs, pass1 U0 np i f r -> nth_error (r_parts r) i = Some p ->
  alone_part place clash f p (adds_at r i) (dels_at r i) = (f', Good (p', a, d, rejs)) ->
  pass1 U0 np (S i) f' (after i r p' a d rejs).
Proof.
  intros U0 np i f r p f' p' a d rejs [(U & H1) H2 H3 H4] Hp E.
  pose proof (iv_insts _ _ _ _ _ _ H1) as HI. destruct (part_inst insts r i p HI Hp) as (Hin & Hi).
  assert (Hs : shaped p).
  { pose proof (iv_shape _ _ _ _ _ _ H1) as X. rewrite Forall_forall in X. apply X. apply nth_error_In in Hp. auto. }
  pose proof (invar_acts _ _ _ _ _ _ H1 Hp) as Hall.
  destruct (alone_part_checked f p _ _ f' p' a d rejs Hin Hs Hall E) as (C1 & C2).
  destruct (invar_step place clash insts Hproper allowed U0 i f r U p f' p' a d rejs H1 Hp E) as (Ef & H1' & _).
  assert (Hlp : i < length (r_parts r)) by (rewrite <- HI, map_length in Hi; auto).
  split.
  - eauto.
  - apply (alone_safe f p _ _ f' _ Hin Hs H2 Hall E).
  - rewrite after_parts. rewrite (map_upd _ _ _ _ _ _ p); auto.
  - intros j q. rewrite after_parts. intros Hj. destruct (Nat.eq_dec i j) as [<-|Hn].
    + rewrite upd_same_error in Hj by auto. injection Hj as <-. auto.
    + rewrite upd_other_error in Hj by auto. destruct (part_inst insts r j q HI Hj) as (_ & Hjl).
      destruct (H4 j q Hj) as [X|(X1 & X2)]; auto. right. split.
      * apply waits_after; rewrite ?(iv_adds _ _ _ _ _ _ H1), ?(iv_dels _ _ _ _ _ _ H1); auto.
      * destruct X2 as [X2|X2]; [left; lia|]. right. apply after_keep. auto.
Qed.

(** * What holds for a level that is consistent with the solution [S] *)
Definition consistent' S (p : part) adds dels : Prop := consistent (projT1 p) given S (projT2 p) adds dels.

Record pass2 (S0 S : list nat) (U0 : list nat) (np : list bool) (i : nat) (f : family) (r : round) : Prop := mkPass2 {
  w_pass1 : pass1 U0 np i f r;
  w_cons : forall j p, nth_error (r_parts r) j = Some p -> consistent' S p (adds_at r j) (dels_at r j);
  w_first : i = 0 -> r_keep r = false /\ r_common r = [];
  w_second : i = 1 -> r_keep r = true -> 1 < length insts -> waits r 1 = true;
  w_common : forall c, In c (r_common r) -> forall j p, nth_error (r_parts r) j = Some p -> j < i ->
    j = 0 \/ r_keep r = true ->
    ~ In c (p_actions p) /\ ~ In c (adds_at r j) /\
    (~ In c S \/ forall s t, axn (projT1 p) c s t = true -> exists t', lo (projT2 p) s t' = true);
  w_lost : forall x, In x S0 -> ~ In x S -> forall j p, nth_error (r_parts r) j = Some p ->
    In x (p_cands p) -> In x (dels_at r j)
}.

Lemma pass2_skip : forall S0 S U0 np i f r, pass2 S0 S U0 np i f r -> waits r i = false -> pass2 S0 S U0 np (Datatypes.S i) f r.
Proof.
  intros S0 S U0 np i f r [H1 H2 H3 H4 H5 H6] Hw. pose proof H1 as [(U & Hinv) _ _ _]. split; auto.
  - apply pass1_skip; auto.
  - intros X. lia.
  - intros X. assert (i = 0) by lia. destruct (H3 H) as (X1 & _). congruence.
  - intros c Hc j p Hj Hlt Hor. destruct (Nat.eq_dec j i) as [->|Hn]; [|apply H5; auto; lia].
    exfalso. destruct (part_inst insts r i p (iv_insts _ _ _ _ _ _ Hinv) Hj) as (_ & Hil).
    destruct i as [|[|i]].
    + destruct (H3 eq_refl) as (_ & X). rewrite X in Hc. destruct Hc.
    + destruct Hor as [|Hk]; [lia|]. rewrite H4 in Hw; auto. discriminate.
    + lia.
Qed.

Lemma cons_grow : forall S p adds dels adds' dels' a r, consistent' S p adds dels -> incl a S -> (forall x, In x r -> ~ In x S) ->
  (forall x, In x adds' <-> In x a \/ In x adds) -> (forall x, In x dels' <-> In x r \/ In x dels) ->
  consistent' S p adds' dels'.
Proof.
  intros S p adds dels adds' dels' a r [N1 N2 N3 N4 N5 N6] Ha Hr H1 H2. split; auto.
  - intros x Hx. apply H1 in Hx. destruct Hx; auto.
  - intros x Hx. apply H2 in Hx. destruct Hx; auto.
  - intros x Hx. rewrite H1. destruct (N4 x Hx); auto.
  - destruct N6 as [N6|N6]; auto. left. intros x Hx. rewrite H1. destruct (N6 x Hx) as [|[|]]; auto.
Qed.

Lemma alone_part_sem : forall f S p adds dels, In (projT1 p) insts -> shaped p -> sol S -> safe f -> consistent' S p adds dels ->
  match alone_part place clash f p adds dels with
  | (f', Bad) => False
  | (f', Stuck) => f' = f
  | (f', Good (p', a, d, r)) => f' = f /\ consistent' S p' [] [] /\ incl a S /\ (forall x, In x r -> ~ In x S) /\
      (forall x, In x d -> ~ In x a) /\
      (forall x, In x d -> ~ In x S \/ forall s t, axn (projT1 p') x s t = true -> exists t', lo (projT2 p') s t' = true)
  end.
Proof.
  intros f S (I & p) adds dels HI Hs HS (Hf & Hrej) Hc. cbn [projT1 projT2] in HI. unfold alone_part. cbn [projT1 projT2].
  pose proof (alone_sem place clash I (Hproper I HI) (Hplain I HI) given (Hbehav I HI) (Hstyle I HI) (Hdrag I HI)
    (Hsh I HI) f S p adds dels (built_inv place f Hf) Hs (so_stab _ _ _ _ _ HS I HI) Hc (so_coexist _ _ _ _ _ HS) (Hrej S HS)) as H.
  destruct (alone place clash I f p adds dels) as (f1 & [(((q & a1) & d1) & rj)| |]); auto.
Qed.

Lemma pass2_step : forall S0 S U0 np i f r p f' p' a d rejs, sol S -> pass2 S0 S U0 np i f r -> nth_error (r_parts r) i = Some p ->
  alone_part place clash f p (adds_at r i) (dels_at r i) = (f', Good (p', a, d, rejs)) ->
  pass2 S0 S U0 np (Datatypes.S i) f' (after i r p' a d rejs).
Proof.
  intros S0 S U0 np i f r p f' p' a d rejs HS [H1 H2 H3 H4 H5 H6] Hp E. pose proof H1 as [(U & Hinv) Hsafe _ _].
  pose proof (iv_insts _ _ _ _ _ _ Hinv) as HI. destruct (part_inst insts r i p HI Hp) as (Hin & Hi).
  assert (Hs : shaped p).
  { pose proof (iv_shape _ _ _ _ _ _ Hinv) as X. rewrite Forall_forall in X. apply X. apply nth_error_In in Hp. auto. }
  destruct (invar_step place clash insts Hproper allowed U0 i f r U p f' p' a d rejs Hinv Hp E) as (Ef & _ & q & Eq & R).
  pose proof (alone_part_sem f S p _ _ Hin Hs HS Hsafe (H2 i p Hp)) as Hsem. rewrite E in Hsem.
  destruct Hsem as (_ & M1 & M2 & M3 & M4 & M5). subst p'.
  assert (Hlp : i < length (r_parts r)) by (rewrite <- HI, map_length in Hi; auto).
  pose proof (iv_adds _ _ _ _ _ _ Hinv) as La. pose proof (iv_dels _ _ _ _ _ _ Hinv) as Ld.
  assert (Hd : forall c, In c d -> ~ In c (actions q)).
  { intros c Hc Ha. apply (rv_d _ _ _ _ _ _ _ _ R) in Hc. apply (sh_disjoint _ _ (rv_shape _ _ _ _ _ _ _ _ R) c Ha Hc). }
  split.
  - apply (pass1_step U0 np i f r p); auto.
  - intros j pj. rewrite after_parts. intros Hj. destruct (Nat.eq_dec i j) as [<-|Hn].
    + rewrite upd_same_error in Hj by auto. injection Hj as <-.
      apply (cons_grow S _ [] [] _ _ a rejs M1 M2 M3).
      * intros x. rewrite after_adds by (rewrite ?La; auto). simpl. tauto.
      * intros x. rewrite after_dels by (rewrite ?Ld; auto). simpl. tauto.
    + rewrite upd_other_error in Hj by auto. destruct (part_inst insts r j pj HI Hj) as (_ & Hjl).
      apply (cons_grow S _ (adds_at r j) (dels_at r j) _ _ a rejs (H2 j pj Hj) M2 M3).
      * intros x. rewrite after_adds by (rewrite ?La; auto). assert (j <> i) by auto. tauto.
      * intros x. rewrite after_dels by (rewrite ?Ld; auto). assert (j <> i) by auto. tauto.
  - intros X. lia.
  - intros X Hk Hlen. assert (i = 0) by lia. subst i. destruct (H3 eq_refl) as (K0 & _).
    apply waits_after; rewrite ?La, ?Ld; auto. apply after_keep in Hk. destruct Hk as [Hk|[Hk|Hk]]; auto. congruence.
  - intros c Hc j pj. rewrite after_parts, after_common in *. intros Hj Hlt Hor.
    assert (Hcd : In c d /\ (i <> 0 -> In c (r_common r))).
    { destruct (Nat.eqb_spec i 0); [split; auto; contradiction|]. apply in_sand in Hc. tauto. }
    destruct Hcd as (Hcd & Hcc). destruct (Nat.eq_dec i j) as [<-|Hn].
    + rewrite upd_same_error in Hj by auto. injection Hj as <-. unfold p_actions. cbn [projT1 projT2].
      split; [auto|]. split; [rewrite after_adds by (rewrite ?La; auto); intros [X|(X & _)]; [apply (M4 c Hcd X)|congruence]|].
      apply M5. auto.
    + rewrite upd_other_error in Hj by auto. destruct (part_inst insts r j pj HI Hj) as (_ & Hjl).
      assert (j = 0) by lia. subst j. destruct (H5 c) with (j := 0) (p := pj) as (X1 & X2 & X3); auto; [lia|].
      split; auto. split; auto. rewrite after_adds by (rewrite ?La; auto). intros [X|(_ & X)]; [apply (M4 c Hcd X)|auto].
  - intros x X1 X2 j pj. rewrite after_parts. intros Hj Hx. destruct (Nat.eq_dec i j) as [<-|Hn].
    + rewrite upd_same_error in Hj by auto. injection Hj as <-. exfalso.
      apply (rv_cands _ _ _ _ _ _ _ _ R) in Hx. destruct Hx as (Hx & _ & Hx'). apply Hx'. apply (H6 x X1 X2 i p Hp). exact Hx.
    + rewrite upd_other_error in Hj by auto. destruct (part_inst insts r j pj HI Hj) as (_ & Hjl).
      apply after_dels; rewrite ?Ld; auto. right. split; auto. apply (H6 x X1 X2 j pj Hj Hx).
Qed.

(** ** The end of a pass *)
Lemma sol_drop : forall S S', sol S -> incl S' S -> incl given S' ->
  (forall I, In I insts -> forall a x y, In a S -> axn I a x y = true -> exists z, moves I S' x z) -> sol S'.
Proof.
  intros S S' [V1 V2 V3 V4 V5] Hi Hg Hd. split; auto.
    all: try (intros a x y Ha Hy _; apply (Hd I HI a x y); auto).
  - intros X. apply V3. apply (rejected_mono _ S'); auto.
  - intros I HI. apply (stab_drop I (Hproper I HI) S S' given); auto.
    intros a x y Ha Hy _. apply (Hd I HI a x y); auto.
Qed.

Lemma pass_end : forall S0 S U0 np i f r, sol S -> pass2 S0 S U0 np i f r -> r_keep r = true ->
  i = length insts \/ r_common r = [] ->
  exists S', sol S' /\ incl S' S /\
    pass2 S0 S' U0 np 0 f (mkRound (r_parts r) (r_adds r) (map (fun x => sor x (r_common r)) (r_dels r)) false (r_force r) []).
Proof.
  intros S0 S U0 np i f r HS [H1 H2 H3 H4 H5 H6] Hk Hend. pose proof H1 as [(U & Hinv) Hsafe Hnp Hck].
  pose proof (iv_insts _ _ _ _ _ _ Hinv) as HI. pose proof (iv_dels _ _ _ _ _ _ Hinv) as Ld.
  assert (Hcom : forall c, In c (r_common r) -> forall j p, nth_error (r_parts r) j = Some p ->
    ~ In c (p_actions p) /\ ~ In c (adds_at r j) /\
    (~ In c S \/ forall s t, axn (projT1 p) c s t = true -> exists t', lo (projT2 p) s t' = true)).
  { intros c Hc j p Hj. destruct Hend as [->|X]; [|rewrite X in Hc; destruct Hc]. apply H5; auto.
    apply (part_inst insts r j p HI Hj). }
  set (S' := filter (fun x => negb (smem x (r_common r))) S).
  assert (HS' : forall x, In x S' <-> In x S /\ ~ In x (r_common r)).
  { intros x. unfold S'. rewrite filter_In, negb_true_iff. rewrite <- (smem_iff x (r_common r)).
    destruct (smem x (r_common r)); split; intros (X1 & X2); split; auto; congruence. }
  assert (Hacts : forall j p, nth_error (r_parts r) j = Some p -> incl (p_actions p) S' /\ incl (adds_at r j) S').
  { intros j p Hj. destruct (H2 j p Hj) as [N1 N2 N3 N4 N5 N6]. split; intros x Hx; apply HS'; split; auto;
      intros Hc; destruct (Hcom x Hc j p Hj) as (X1 & X2 & _); auto. }
  assert (Hshape : forall j p, nth_error (r_parts r) j = Some p -> shaped p).
  { intros j p Hj. pose proof (iv_shape _ _ _ _ _ _ Hinv) as X. rewrite Forall_forall in X. apply X. apply nth_error_In in Hj. auto. }
  assert (Hlow : forall j p, nth_error (r_parts r) j = Some p -> forall s t, lo (projT2 p) s t = true <-> moves (projT1 p) (p_actions p) s t).
  { intros j p Hj. destruct (part_inst insts r j p HI Hj) as (Hin & _).
    apply (sh_lo _ _ (Hshape j p Hj)). apply (pl_async _ (Hplain _ Hin)). }
  assert (Hpart : forall I, In I insts -> exists j p, nth_error (r_parts r) j = Some p /\ projT1 p = I).
  { intros I Hin. rewrite <- HI in Hin. apply in_map_iff in Hin. destruct Hin as (p & <- & Hin). apply In_nth_error in Hin.
    destruct Hin as (j & Hj). exists j, p. auto. }
  assert (HgS : incl given S').
  { intros x Hx. destruct insts as [|I0 l] eqn:El; [congruence|]. rewrite <- El in *.
    destruct (Hpart I0) as (j & p & Hj & _); [rewrite El; left; auto|].
    destruct (Hacts j p Hj) as (X1 & X2). destruct (cn_given _ _ _ _ _ _ (H2 j p Hj) x Hx); auto. }
  assert (Hsol : sol S').
  { apply (sol_drop S); auto.
    - intros x Hx. apply HS' in Hx. tauto.
    - intros I Hin a x y Ha Hy. destruct (in_dec Nat.eq_dec a (r_common r)) as [Hc|Hc].
      + destruct (Hpart I Hin) as (j & p & Hj & <-). destruct (Hcom a Hc j p Hj) as (_ & _ & [X|X]); [contradiction|].
        destruct (X x y Hy) as (z & Hz). exists z. apply (moves_mono _ (p_actions p)); [apply (Hacts j p Hj)|].
        apply (Hlow j p Hj). auto.
      + exists y, a. split; auto. apply HS'. auto. }
  exists S'. split; auto. split; [intros x Hx; apply HS' in Hx; tauto|].
  destruct Hinv as [V1 V2 V3 V4 V5 V6 V7 V8 V9].
  split; cbn [r_parts r_adds r_dels r_keep r_common r_force].
  - split; cbn [r_parts r_adds r_dels r_keep r_common r_force]; auto.
    + exists U. split; cbn [r_parts r_adds r_dels r_keep]; auto.
      * rewrite map_length. auto.
      * intros j p Hj x Hx. destruct (part_inst insts r j p HI Hj) as (_ & Hjl).
        destruct (V8 j p Hj x Hx); auto. right. rewrite nth_map_nil by (rewrite ?Ld; auto). apply in_sor. auto.
      * intros _ j Hj. lia.
    + intros j p Hj. destruct (Hck j p Hj) as [X|(X & _)]; auto. right. split; [|left; lia].
      destruct (part_inst insts r j p HI Hj) as (_ & Hjl). unfold waits in *. cbn [r_force r_adds r_dels].
      apply orb_true_iff in X. destruct X as [X|X]; [rewrite X; auto|].
      rewrite nth_map_nil by (rewrite ?Ld; auto). apply orb_true_iff. right. apply negb_true_iff in X. apply negb_true_iff.
      destruct (dels_at r j) as [|x l] eqn:E; [discriminate|].
      destruct (sor (x :: l) (r_common r)) as [|z l'] eqn:E2; auto.
      exfalso. assert (Y : In x (sor (x :: l) (r_common r))) by (apply in_sor; left; left; auto). rewrite E2 in Y. destruct Y.
  - intros j p Hj. destruct (part_inst insts r j p HI Hj) as (_ & Hjl). rewrite nth_map_nil by (rewrite ?Ld; auto).
    destruct (H2 j p Hj) as [N1 N2 N3 N4 N5 N6]. destruct (Hacts j p Hj) as (X1 & X2). split; auto.
    + intros x Hx Hx'. apply HS' in Hx'. apply in_sor in Hx. destruct Hx as [Hx|Hx]; [apply (N3 x Hx)|]; tauto.
    + destruct N6 as [N6|N6]; auto. left. intros x Hx. apply HS' in Hx. apply N6. tauto.
  - auto.
  - intros X. lia.
  - intros c [].
  - intros x X1 X2 j p Hj Hx. destruct (part_inst insts r j p HI Hj) as (_ & Hjl). rewrite nth_map_nil by (rewrite ?Ld; auto).
    apply in_sor. destruct (in_dec Nat.eq_dec x S) as [Y|Y].
    + right. destruct (in_dec Nat.eq_dec x (r_common r)) as [Z|Z]; auto. exfalso. apply X2, HS'. auto.
    + left. apply (H6 x X1 Y j p Hj Hx).
Qed.

Lemma is_empty_eq : forall l : list nat, is_empty l = true <-> l = [].
Proof. intros [|]; split; auto; discriminate. Qed.

(** ** The rounds *)
Lemma rounds_sem : forall U0 np S0 fuel f ps adds dels force S, sol S ->
  pass2 S0 S U0 np 0 f (mkRound ps adds dels false force []) ->
  match rounds_loop place clash fuel f ps adds dels force with
  | (f', Bad) => False
  | (f', Stuck) => True
  | (f', Good ps') => safe f' /\ exists S', sol S' /\ incl S' S /\
      (forall p, In p ps' -> consistent' S' p [] [] /\ forall x, In x (p_cands p) -> In x S0 -> In x S')
  end.
Proof.
  intros U0 np S0. induction fuel as [|fuel IH]; intros f ps adds dels force S HS HP; cbn [rounds_loop]; auto.
  assert (Hlen : length ps = length insts).
  { destruct HP as [[(U & [X _ _ _ _ _ _ _ _]) _ _ _] _ _ _ _ _]. cbn [r_parts] in X. rewrite <- X, map_length. auto. }
  pose proof (sweep_cases place clash (pass2 S0 S U0 np) (pass2_skip S0 S U0 np)) as HW.
  assert (Hstep : forall i f r p f' p' a d rejs, pass2 S0 S U0 np i f r -> nth_error (r_parts r) i = Some p ->
     waits r i = true -> r_keep r && is_empty (r_common r) = false ->
     alone_part place clash f p (adds_at r i) (dels_at r i) = (f', Good (p', a, d, rejs)) ->
     pass2 S0 S U0 np (Datatypes.S i) f' (after i r p' a d rejs)).
  { intros. eapply pass2_step; eauto. }
  specialize (HW Hstep (length ps) 0 f _ HP).
  destruct (sweep place clash (length ps) 0 f _) as (f1 & [r1| |]); auto.
  - destruct HW as (i' & H & Hle & Hend). cbn [plus] in Hend. destruct (r_keep r1) eqn:Ek.
    + destruct (pass_end S0 S U0 np i' f1 r1 HS H Ek) as (S' & X1 & X2 & X3).
      { destruct Hend as [Hend|Hend]; [left; lia|right]. cbn [andb] in Hend. apply is_empty_eq. auto. }
      specialize (IH f1 _ _ _ _ S' X1 X3). destruct (rounds_loop _ _ _ _ _ _ _ _) as (f2 & [ps2| |]); auto.
      destruct IH as (Y0 & S2 & Y1 & Y2 & Y3). split; auto. exists S2. split; auto. split; auto. intros x Hx. auto.
    + destruct H as [[(U & [V1 V2 V3 V4 V5 V6 V7 V8 V9]) Hsafe _ _] H2 _ _ _ H6]. split; auto. exists S.
      split; auto. split; [apply incl_refl|]. intros p Hp. apply In_nth_error in Hp. destruct Hp as (j & Hj).
      destruct (part_inst insts r1 j p V1 Hj) as (_ & Hjl).
      destruct Hend as [Hend|Hend]; [|discriminate].
      destruct (V9 Ek j) as (A1 & A2); [lia|]. pose proof (H2 j p Hj) as Hc. rewrite A1, A2 in Hc. split; auto.
      intros x Hx Hx0. destruct (in_dec Nat.eq_dec x S) as [|Hn]; auto. exfalso. pose proof (H6 x Hx0 Hn j p Hj Hx) as X.
      rewrite A2 in X. destruct X.
  - destruct HW as (i1 & f2 & r2 & p & H & Hj & _ & E).
    pose proof H as [[(U & Hinv) Hsafe _ _] H2 _ _ _ _].
    destruct (part_inst insts r2 i1 p (iv_insts _ _ _ _ _ _ Hinv) Hj) as (Hin & _).
    pose proof (alone_part_sem f2 S p (adds_at r2 i1) (dels_at r2 i1) Hin) as X. rewrite E in X. apply X; auto.
    pose proof (iv_shape _ _ _ _ _ _ Hinv) as Y. rewrite Forall_forall in Y. apply Y. apply nth_error_In in Hj. auto.
Qed.

Lemma rounds_any : forall U0 np fuel f ps adds dels force,
  pass1 U0 np 0 f (mkRound ps adds dels false force []) ->
  match rounds_loop place clash fuel f ps adds dels force with
  | (f', Bad) => safe f'
  | (f', Stuck) => safe f'
  | (f', Good ps') => safe f' /\ map p_no_partial ps' = np /\ (forall p, In p ps' -> checked' p)
  end.
Proof.
  intros U0 np. induction fuel as [|fuel IH]; intros f ps adds dels force HP; cbn [rounds_loop]; [apply (q_safe _ _ _ _ _ HP)|].
  assert (Hlen : length ps = length insts).
  { destruct HP as [(U & [X _ _ _ _ _ _ _ _]) _ _ _]. cbn [r_parts] in X. rewrite <- X, map_length. auto. }
  pose proof (sweep_cases place clash (pass1 U0 np) (pass1_skip U0 np)) as HW.
  assert (Hstep : forall i f r p f' p' a d rejs, pass1 U0 np i f r -> nth_error (r_parts r) i = Some p ->
     waits r i = true -> r_keep r && is_empty (r_common r) = false ->
     alone_part place clash f p (adds_at r i) (dels_at r i) = (f', Good (p', a, d, rejs)) ->
     pass1 U0 np (Datatypes.S i) f' (after i r p' a d rejs)).
  { intros. eapply pass1_step; eauto. }
  specialize (HW Hstep (length ps) 0 f _ HP).
  destruct (sweep place clash (length ps) 0 f _) as (f1 & [r1| |]); auto.
  - destruct HW as (i' & H & Hle & Hend). cbn [plus] in Hend. pose proof H as [(U & [V1 V2 V3 V4 V5 V6 V7 V8 V9]) Hsafe Hnp Hck].
    destruct (r_keep r1) eqn:Ek.
    + apply IH. split; cbn [r_parts r_adds r_dels r_keep r_common r_force]; auto.
      * exists U. split; cbn [r_parts r_adds r_dels r_keep]; auto.
        -- rewrite map_length. auto.
        -- intros j p Hj x Hx. destruct (part_inst insts r1 j p V1 Hj) as (_ & Hjl).
           destruct (V8 j p Hj x Hx); auto. right. rewrite nth_map_nil by (rewrite V3; auto). apply in_sor. auto.
        -- intros _ j Hj. lia.
      * intros j p Hj. destruct (Hck j p Hj) as [X|(X & _)]; auto. right. split; [|left; lia].
        destruct (part_inst insts r1 j p V1 Hj) as (_ & Hjl). unfold waits in *. cbn [r_force r_adds r_dels].
        apply orb_true_iff in X. destruct X as [X|X]; [rewrite X; auto|].
        rewrite nth_map_nil by (rewrite V3; auto). apply orb_true_iff. right. apply negb_true_iff in X. apply negb_true_iff.
        destruct (dels_at r1 j) as [|x l] eqn:E; [discriminate|].
        destruct (sor (x :: l) (r_common r1)) as [|z l'] eqn:E2; auto.
        exfalso. assert (Y : In x (sor (x :: l) (r_common r1))) by (apply in_sor; left; left; auto). rewrite E2 in Y. destruct Y.
    + split; auto. split; auto. intros p Hp. apply In_nth_error in Hp. destruct Hp as (j & Hj).
      destruct (part_inst insts r1 j p V1 Hj) as (_ & Hjl). destruct (Hck j p Hj) as [X|(_ & [X|X])]; auto; [|congruence].
      destruct Hend as [Hend|Hend]; [lia|discriminate].
  - destruct HW as (i1 & f2 & r2 & p & [(U & Hinv) Hsafe _ _] & Hj & _ & E).
    destruct (part_inst insts r2 i1 p (iv_insts _ _ _ _ _ _ Hinv) Hj) as (Hin & _).
    apply (alone_safe f2 p _ _ f1 _ Hin) in E; auto.
    + pose proof (iv_shape _ _ _ _ _ _ Hinv) as Y. rewrite Forall_forall in Y. apply Y. apply nth_error_In in Hj. auto.
    + apply (invar_acts _ _ _ _ _ _ Hinv Hj).
  - destruct HW as (i1 & f2 & r2 & [(U & Hinv) Hsafe _ _] & [-> |(p & Hj & E)]); auto.
    destruct (part_inst insts r2 i1 p (iv_insts _ _ _ _ _ _ Hinv) Hj) as (Hin & _).
    apply (alone_safe f2 p _ _ f1 _ Hin) in E; auto.
    + pose proof (iv_shape _ _ _ _ _ _ Hinv) as Y. rewrite Forall_forall in Y. apply Y. apply nth_error_In in Hj. auto.
    + apply (invar_acts _ _ _ _ _ _ Hinv Hj).
Qed.

(** * revise_actions *)
Lemma revise_pass1 : forall f ps U adds dels, safe f -> level_ok insts allowed ps U -> (forall x, In x adds -> allowed x) ->
  (forall p, In p ps -> forall x, In x (p_cands p) -> allowed x \/ In x dels) ->
  pass1 (U ++ adds) (map p_no_partial ps) 0 f
    (mkRound ps (map (fun _ => adds) ps) (map (fun _ => dels) ps) false (is_empty adds && is_empty dels) []).
Proof.
  intros f ps U adds dels Hf [H1 H2 H3 H4] Ha Hc.
  assert (Hlen : length ps = length insts) by (rewrite <- H1, map_length; auto).
  split; cbn [r_parts]; auto.
  - exists (U ++ adds). split; cbn [r_parts r_adds r_dels r_keep]; auto.
    + rewrite map_length. auto.
    + rewrite map_length. auto.
    + intros j p Hj x. rewrite nth_const by (apply nth_error_Some; congruence).
      rewrite in_app_iff, (H3 p) by (apply nth_error_In in Hj; auto). tauto.
    + apply incl_refl.
    + intros x Hx. apply in_app_or in Hx. destruct Hx; auto.
    + intros j p Hj x Hx. rewrite nth_const by (apply nth_error_Some; congruence). apply nth_error_In in Hj. eauto.
    + intros _ j Hj. lia.
  - intros j p Hj. right. split; [|left; lia]. unfold waits. cbn [r_force r_adds r_dels].
    rewrite !nth_const by (apply nth_error_Some; congruence). destruct (is_empty adds), (is_empty dels); auto.
Qed.

Lemma revise_any : forall rounds f ps U adds dels f' r, safe f -> level_ok insts allowed ps U -> (forall x, In x adds -> allowed x) ->
  (forall p, In p ps -> forall x, In x (p_cands p) -> allowed x \/ In x dels) ->
  revise place clash rounds f ps adds dels = (f', r) ->
  safe f' /\ forall ps', r = Good ps' -> map p_no_partial ps' = map p_no_partial ps /\ (forall p, In p ps' -> checked' p).
Proof.
  intros rounds f ps U adds dels f' r Hf Hl Ha Hc E.
  pose proof (rounds_any _ _ rounds _ _ _ _ _ (revise_pass1 f ps U adds dels Hf Hl Ha Hc)) as H. unfold revise in E.
  destruct (rounds_loop _ _ _ _ _ _ _ _) as (f1 & [ps1| |]).
  - destruct H as (H1 & H2 & H3). destruct (same_sizes ps1); injection E as <- <-; split; auto; intros ps' X; [|discriminate].
    injection X as <-. auto.
  - injection E as <- <-. split; auto. intros ps' X. discriminate.
  - injection E as <- <-. split; auto. intros ps' X. discriminate.
Qed.

(** Consistent parts stay consistent; parts that cannot be revised were consistent with no solution. *)
Lemma revise_sem : forall rounds f ps U adds dels S f' r, safe f -> level_ok insts allowed ps U -> (forall x, In x adds -> allowed x) ->
  (forall p, In p ps -> forall x, In x (p_cands p) -> allowed x \/ In x dels) ->
  sol S -> (forall p, In p ps -> consistent' S p adds dels) ->
  revise place clash rounds f ps adds dels = (f', r) ->
  r <> Bad /\ forall ps', r = Good ps' -> exists S', sol S' /\ incl S' S /\
    forall p, In p ps' -> consistent' S' p [] [] /\ forall x, In x (p_cands p) -> In x S -> In x S'.
Proof.
  intros rounds f ps U adds dels S f' r Hf Hl Ha Hc HS Hcon E.
  assert (HP : pass2 S S (U ++ adds) (map p_no_partial ps) 0 f
    (mkRound ps (map (fun _ => adds) ps) (map (fun _ => dels) ps) false (is_empty adds && is_empty dels) [])).
  { split; cbn [r_parts r_adds r_dels r_keep r_common].
    - apply revise_pass1; auto.
    - intros j p Hj. rewrite !nth_const by (apply nth_error_Some; congruence). apply Hcon. apply nth_error_In in Hj. auto.
    - auto.
    - intros X. lia.
    - intros c [].
    - intros x X1 X2. contradiction. }
  pose proof (rounds_sem _ _ _ rounds _ _ _ _ _ S HS HP) as H. unfold revise in E.
  destruct (rounds_loop _ _ _ _ _ _ _ _) as (f1 & [ps1| |]).
  - destruct H as (_ & S' & X1 & X2 & X3). destruct (same_sizes ps1); injection E as <- <-; split; try discriminate.
    intros ps' Y. injection Y as <-. exists S'. auto.
  - destruct H.
  - injection E as <- <-. split; discriminate.
Qed.
End Complete.
