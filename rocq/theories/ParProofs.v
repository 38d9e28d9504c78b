(** The parallel search: whatever is reported has been verified. *)
From Coq Require Import List Arith Bool Lia.
From Verif Require Import FinLib ReachModel ReachSpec StabModel RankModel ConflictModel ConflictSpec ConflictProofs
  SearchModel SearchSpec SearchProofs SearchProofs2 SearchProofs3 SearchProofs4 ParModel ParSpec.
Import ListNotations.

Lemma nth_error_upd_eq : forall A (l : list A) i x j, nth_error l i <> None ->
  nth_error (upd l i x) j = if j =? i then Some x else nth_error l j.
Proof.
  intros A l i x j H. destruct (Nat.eqb_spec j i) as [->|Hn].
  - apply upd_same_error. apply nth_error_Some. auto.
  - apply upd_other_error. auto.
Qed.

(** ** The threads one by one: a property of the shared variables and of every
    thread that each step of a thread keeps. *)
Section Steps.
Variable place : fset -> list fset -> nat.
Variable clash : nat -> nat -> bool.
Variables md mh mc rounds : nat.
Variable o : par_opts.
(** [P g]: about the shared variables; [Q g i t]: about thread [i]. *)
Variable P : shared -> Prop.
Variable Q : shared -> nat -> thread -> Prop.
Hypothesis P_threads : forall g l ts, P g -> P (mkShared (g_conf g) (g_done g) (g_found g) (g_ret g) (g_reported g) l ts).
Hypothesis Q_threads : forall g l ts i t, Q g i t ->
  Q (mkShared (g_conf g) (g_done g) (g_found g) (g_ret g) (g_reported g) l ts) i t.

Definition holds (g : shared) : Prop := P g /\ forall i t, nth_error (g_threads g) i = Some t -> Q g i t.

Lemma holds_put : forall g g' i t t', nth_error (g_threads g) i = Some t -> g_threads g' = g_threads g ->
  P g' -> (forall j u, j <> i -> Q g j u -> Q g' j u) -> Q g' i t' -> holds g -> holds (put g' i t').
Proof.
  intros g g' i t t' Ht E HP HQ HQ' (_ & H). split; [apply P_threads; exact HP|].
  intros j u. cbn [put g_threads]. rewrite E, nth_error_upd_eq by congruence. destruct (Nat.eqb_spec j i) as [->|Hn].
  - intros X. injection X as <-. apply Q_threads. auto.
  - intros X. apply Q_threads. auto.
Qed.

Variable good_pick : (nat -> node -> option nat) -> Prop.
Variable kills : Prop.
Hypothesis H_kill : kills -> forall g, P g -> P (set_done g).
Hypothesis Q_kill : kills -> forall g i t, P g -> Q g i t -> Q (set_done g) i t.
Hypothesis H_head : forall g i t, P g -> Q g i t -> t_phase t = Head ->
  (g_done g || (negb (ntrials o =? 0) && (ntrials o <=? t_trial t)) = true -> Q g i (set_phase t Gone)) /\
  (g_done g || (negb (ntrials o =? 0) && (ntrials o <=? t_trial t)) = false -> Q g i (set_phase t Trying)).
Hypothesis H_try : forall g i t fuel pick f r, good_pick pick -> P g -> Q g i t -> t_phase t = Trying ->
  add_stabilization place clash md mh mc rounds (t_base t) pick fuel (t_fam t) = (f, r) ->
  Q g i (mkThread f (t_base t) (t_trial t)
           (match r with Found a => Tried (Some a) | NotFound => Tried None
            | Halted => if g_done g then Tried None else Failed end)).
Hypothesis H_count : forall g i t found, P g -> Q g i t -> t_phase t = Tried found ->
  let g' := count_solution place o g i (t_trial t) found in
  P g' /\ (forall j u, j <> i -> Q g j u -> Q g' j u) /\ Q g' i (set_phase t Inside).
Hypothesis H_merge : forall g i t g' t', P g -> Q g i t -> t_phase t = Inside ->
  merge_conflicts place mc o g t = (g', t') ->
  P g' /\ (forall j u, j <> i -> Q g j u -> Q g' j u) /\ Q g' i (set_phase t' Merged).
Hypothesis H_drop : forall g i t g' t', P g -> Q g i t -> t_phase t = Merged ->
  drop_impossible place clash rounds g t = (g', t') ->
  P g' /\ (forall j u, j <> i -> Q g j u -> Q g' j u) /\ Q g' i t'.

Lemma count_threads : forall g i n found, g_threads (count_solution place o g i n found) = g_threads g.
Proof.
  intros g i n found. unfold count_solution. destruct (g_done g); auto. destruct found as [acts|]; auto.
  destruct (solution_as_conflict o && conflict_ck (g_conf g) (fs_of acts)); auto.
Qed.
Lemma merge_threads : forall g t, g_threads (fst (merge_conflicts place mc o g t)) = g_threads g.
Proof. intros g t. unfold merge_conflicts. destruct (_ || _); auto. Qed.
Lemma drop_threads : forall g t, g_threads (fst (drop_impossible place clash rounds g t)) = g_threads g.
Proof.
  intros g t. unfold drop_impossible. destruct (g_done g); auto. destruct (is_empty _); auto.
  destruct (revise _ _ _ _ _ _ _) as (f & [b| |]); auto.
Qed.

Lemma happen_holds : forall g e, (e = Kill -> kills) -> (forall i fuel pick, e = Move i fuel pick -> good_pick pick) ->
  holds g -> holds (happen place clash md mh mc rounds o g e).
Proof.
  intros g [|i fuel pick] Hk Hp H; cbn [happen].
  { specialize (Hk eq_refl). destruct H as (H1 & H2). split; [apply H_kill; auto|]. intros i t Ht. apply Q_kill; auto. }
  specialize (Hp i fuel pick eq_refl). unfold move. destruct (nth_error (g_threads g) i) as [t|] eqn:Ht; auto.
  pose proof H as (H1 & H2). pose proof (H2 i t Ht) as Hq. destruct (t_phase t) eqn:Eph; auto.
  - destruct (H_head g i t H1 Hq Eph) as (X1 & X2).
    destruct (g_done g || _); apply (holds_put g g i t); auto.
  - destruct (add_stabilization _ _ _ _ _ _ _ _ _ _) as (f & r) eqn:E.
    pose proof (H_try g i t fuel pick f r Hp H1 Hq Eph E) as X.
    destruct r as [acts| |]; apply (holds_put g g i t); auto.
  - destruct (g_lock g) eqn:El; auto. destruct (H_count g i t _ H1 Hq Eph) as (X1 & X2 & X3).
    apply (holds_put g _ i t); auto.
    + cbn [set_lock g_threads]. apply count_threads.
    + apply P_threads. exact X1.
    + intros j u Hj Hu. apply Q_threads. auto.
    + apply Q_threads. exact X3.
  - destruct (merge_conflicts place mc o g t) as (g' & t') eqn:E.
    destruct (H_merge g i t g' t' H1 Hq Eph E) as (X1 & X2 & X3). apply (holds_put g _ i t); auto.
    + cbn [set_lock g_threads]. pose proof (merge_threads g t) as X. rewrite E in X. exact X.
    + apply P_threads. exact X1.
    + intros j u Hj Hu. apply Q_threads. auto.
    + apply Q_threads. exact X3.
  - destruct (drop_impossible place clash rounds g t) as (g' & t') eqn:E.
    destruct (H_drop g i t g' t' H1 Hq Eph E) as (X1 & X2 & X3). apply (holds_put g _ i t); auto.
    pose proof (drop_threads g t) as X. rewrite E in X. exact X.
Qed.

Lemma run_holds : forall evs g, (In Kill evs -> kills) ->
  (forall i fuel pick, In (Move i fuel pick) evs -> good_pick pick) ->
  holds g -> holds (run place clash md mh mc rounds o g evs).
Proof.
  induction evs as [|e evs IH]; intros g Hk Hp H; cbn [run fold_left]; auto.
  apply IH; [intros Hi; apply Hk; right; auto|intros i fuel pick Hi; apply (Hp i fuel pick); right; auto|].
  apply happen_holds; auto.
  - intros ->. apply Hk. left. auto.
  - intros i fuel pick ->. apply (Hp i fuel pick). left. auto.
Qed.
End Steps.

(** ** Verified results *)
Section Verified.
Variable place : fset -> list fset -> nat.
Variable clash : nat -> nat -> bool.
Variables md mh mc rounds : nat.
Variable o : par_opts.
Variable insts : list inst.
Variable given : list nat.
Variable allowed : nat -> Prop.
Hypothesis Hne : insts <> [].
Hypothesis Hproper : forall I, In I insts -> proper I.

Notation ok := (verified insts allowed given).
Notation good := (level_good insts allowed given).

Record p_inv (g : shared) : Prop := mkPInv {
  pi_rep : forall r, In r (g_reported g) -> ok (r_acts r);
  pi_found : g_found g = true <-> g_reported g <> [];
  pi_ret : g_found g = true -> exists l r, g_reported g = l ++ [r] /\ g_ret g = r_acts r
}.
Record q_inv (g : shared) (i : nat) (t : thread) : Prop := mkQInv {
  qi_base : g_done g = true /\ t_phase t = Head \/ t_phase t = Gone \/ good (t_base t);
  qi_tried : forall acts, t_phase t = Tried (Some acts) -> ok acts
}.

Lemma count_inv : forall g i n found, p_inv g -> (forall acts, found = Some acts -> ok acts) ->
  p_inv (count_solution place o g i n found) /\
  (g_done g = true -> g_done (count_solution place o g i n found) = true).
Proof.
  intros g i n found H Hf. unfold count_solution. destruct (g_done g) eqn:Ed; [split; auto|].
  destruct found as [acts|]; [|split; [auto|congruence]].
  destruct (solution_as_conflict o && _); [split; [auto|congruence]|]. split; [|congruence].
  destruct H as [H1 H2 H3]. split; cbn [g_reported g_found g_ret].
  - intros r Hr. apply in_app_or in Hr. destruct Hr as [Hr|[<-|[]]]; auto.
  - split; auto. intros _ X. destruct (g_reported g); discriminate X.
  - intros _. exists (g_reported g), (mkReport i n acts). auto.
Qed.

Lemma run_verified : forall evs g, schedule evs -> holds p_inv q_inv g ->
  holds p_inv q_inv (run place clash md mh mc rounds o g evs).
Proof.
  intros evs g Hs. apply (run_holds place clash md mh mc rounds o p_inv q_inv) with (good_pick := picks_candidates) (kills := True); auto.
  - intros h l ts [H1 H2 H3]. split; auto.
  - intros h l ts i t [H1 H2]. split; auto.
  - intros _ h [H1 H2 H3]. split; auto.
  - intros _ h i t _ [H1 H2]. split; auto. destruct H1 as [(_ & X)|[X|X]]; auto.
  - intros h i t _ [H1 H2] Eph. split; intros E.
    + split; cbn [t_phase set_phase t_base]; auto. discriminate.
    + split; cbn [t_phase set_phase t_base]; [|discriminate]. right. right.
      destruct H1 as [(X & _)|[X|X]]; auto; [|congruence]. rewrite X in E. discriminate.
  - intros h i t fuel pick f r Hp _ [H1 H2] Eph E. split; cbn [t_phase t_base].
    + destruct H1 as [(_ & X)|[X|X]]; auto; congruence.
    + intros acts Ea. destruct r as [a| |]; try discriminate; [|destruct (g_done h); discriminate].
      injection Ea as ->.
      apply (add_stabilization_found place clash md mh mc rounds insts Hproper allowed given Hne (t_base t) pick Hp fuel _ f acts) in E; auto.
      destruct H1 as [(_ & X)|[X|X]]; auto; congruence.
  - intros h i t found Hh [H1 H2] Eph g'.
    destruct (count_inv h i (t_trial t) found Hh) as (X1 & X2); [intros acts ->; auto|]. split; auto. split.
    + intros j u _ [Y1 Y2]. split; auto. destruct Y1 as [(Y & Z)|Y]; auto.
    + split; cbn [t_phase set_phase t_base]; [|discriminate]. destruct H1 as [(_ & X)|[X|X]]; auto; congruence.
  - intros h i t h' t' Hh [H1 H2] Eph E. unfold merge_conflicts in E.
    assert (X : good (t_base t)) by (destruct H1 as [(_ & X)|[X|X]]; auto; congruence).
    destruct (_ || conflicts_file o); injection E as <- <-; [|split; auto; split; auto; split; cbn; auto; discriminate].
    split; [destruct Hh; split; auto|]. split; [|split; cbn [t_phase set_phase t_base]; auto; discriminate].
    intros j u _ [Y1 Y2]. split; auto. destruct Y1 as [(Y & Z)|Y]; auto. left. cbn [g_done]. rewrite Y. auto.
  - intros h i t h' t' Hh [H1 H2] Eph E. unfold drop_impossible in E.
    assert (X : good (t_base t)) by (destruct H1 as [(_ & X)|[X|X]]; auto; congruence).
    destruct (g_done h) eqn:Ed.
    { injection E as <- <-. split; auto. split; auto. split; cbn; auto; discriminate. }
    destruct (is_empty _).
    { injection E as <- <-. split; auto. split; auto. split; cbn; auto; discriminate. }
    destruct (revise _ _ _ _ _ _ _) as (f & [b| |]) eqn:Er; injection E as <- <-.
    + split; auto. split; auto. split; cbn [t_phase t_base]; [|discriminate]. right. right.
      apply (revise_good place clash rounds insts Hproper allowed given) in Er; auto. intros x [].
    + split; [destruct Hh; split; auto|]. split; [|split; cbn; auto; discriminate].
      intros j u _ [Y1 Y2]. split; auto. destruct Y1 as [(Y & Z)|Y]; auto.
    + split; auto. split; auto. split; cbn; auto; discriminate.
Qed.
End Verified.
