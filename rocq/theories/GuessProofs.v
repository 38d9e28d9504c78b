From Coq Require Import List Arith Bool Lia Permutation.
From Verif Require Import FinLib ReachModel ReachSpec ReachProofs StabModel StabProofs StabProofs2 StabProofs3 StabProofs4 RankModel RankSpec RankProofs
  ConflictModel ConflictSpec ConflictProofs SearchModel SearchSpec SearchProofs SearchProofs2 SearchProofs3 SearchProofs4 GuessModel GuessSpec.
Import ListNotations.

Lemma memb_in : forall x l, memb x l = true <-> In x l.
Proof.
  intros x l. unfold memb. rewrite existsb_exists. split.
  - intros (y & H1 & H2). apply Nat.eqb_eq in H2. subst. auto.
  - intros H. exists x. split; auto. apply Nat.eqb_refl.
Qed.

Lemma subset_ck_spec : forall a b, subset_ck a b = true <-> incl a b.
Proof.
  intros a b. unfold subset_ck. rewrite forallb_forall. split; intros H x Hx; [apply memb_in|apply memb_in]; auto.
Qed.

Section Sound.
Variable place : fset -> list fset -> nat.
Variable clash : nat -> nat -> bool.
Variables max_depth max_height max_conflict_sz rounds : nat.
Variable insts : list inst.
Hypothesis Hproper : forall I, In I insts -> proper I.
Variable allowed : nat -> Prop.
Variable given : list nat.
Hypothesis Hne : insts <> [].
Variable base : list part.
Variable pick : nat -> node -> option nat.
Hypothesis Hpick : forall t nd a, pick t nd = Some a -> exists p, In p (parts nd) /\ In a (p_cands p).

Notation level_good := (level_good insts allowed given).

Lemma level_more : forall adds f ps dels f' ps', level_good ps -> (forall x, In x adds -> allowed x) ->
  revise place clash rounds f ps adds dels = (f', Good ps') ->
  level_good ps' /\ forall p, In p ps' -> incl adds (p_actions p) /\
    forall q, In q ps -> incl (p_actions q) (p_actions p).
Proof.
  intros adds f ps dels f' ps' (U & HU & Hg & Hc) Ha E.
  destruct (revise_same place clash insts Hproper allowed rounds f ps U adds dels f' ps') as (U' & R1 & R2 & R3 & R4); auto.
  { intros p Hp x Hx. left. eauto. }
  split.
  - exists U'. split; auto. split; auto. eapply incl_tran; eauto.
  - intros p Hp. destruct R1 as [L1 L2 L3 L4]. destruct HU as [K1 K2 K3 K4]. split.
    + intros x Hx. apply (L3 p Hp). auto.
    + intros q Hq x Hx. apply (L3 p Hp). apply R2. apply (K3 q Hq). auto.
Qed.

Lemma pick_separately_good : forall guess f ps pk am f' ps' pk', level_good ps ->
  (am = true -> forall x, In x guess -> allowed x) ->
  pick_separately place clash max_conflict_sz rounds base f ps pk guess am = (f', Good (ps', pk')) ->
  level_good ps'.
Proof.
  induction guess as [|a guess IH]; intros f ps pk am f' ps' pk' HG Ha; cbn [pick_separately].
  - intros X. injection X as _ <- _. auto.
  - destruct (negb (candidate_ck ps a) && (negb am || delegate_ck ps a)) eqn:E.
    + apply IH; auto. intros H x Hx. apply Ha; simpl; auto.
    + assert (Haa : allowed a).
      { destruct (candidate_ck ps a) eqn:Ec.
        - unfold candidate_ck in Ec. apply existsb_exists in Ec. destruct Ec as (p & H1 & H2).
          apply memb_in in H2. destruct HG as (U & _ & _ & H). eauto.
        - cbn in E. apply orb_false_iff in E. destruct E as (E1 & E2). destruct am; [|discriminate].
          apply Ha; simpl; auto. }
      unfold pick_action. destruct (revise place clash rounds f ps [a] []) as (f1, [ps1| |]) eqn:Er; try discriminate.
      * apply level_more in Er; auto; [|intros x [<-|[]]; auto]. destruct Er as (Er & _).
        apply IH; auto. intros H x Hx. apply Ha; simpl; auto.
      * destruct (SearchModel.add_small _ _ _ _ _ _ _ _) as [f2| |]; discriminate.
Qed.

Lemma stabilise_from_found : forall fuel f ps pk f' acts, level_good ps ->
  stabilise_from place clash max_depth max_height max_conflict_sz rounds base pick fuel f ps pk = (f', Found acts) ->
  verified insts allowed given acts.
Proof.
  intros fuel f ps pk f' acts HB. unfold stabilise_from. destruct (conflict_ck _ _); [discriminate|].
  apply (search_found place clash max_depth max_height max_conflict_sz rounds insts Hproper allowed given Hne base pick Hpick);
    [constructor; auto|simpl; lia].
Qed.

Lemma trial_found : forall fuel f guess subset f' acts, level_good base ->
  (subset = false -> forall x, In x guess -> allowed x) ->
  trial place clash max_depth max_height max_conflict_sz rounds base pick fuel f guess subset = (f', Found acts) ->
  verified insts allowed given acts /\ incl acts guess /\ (subset = false -> incl guess acts).
Proof.
  intros fuel f guess subset f' acts HB Ha. unfold trial.
  destruct (pick_separately _ _ _ _ _ _ _ _ _ _) as (f1, [(ps & pk)| |]) eqn:E; try discriminate.
  apply pick_separately_good in E; auto; [|destruct subset; [discriminate|auto]].
  destruct (existsb p_dead ps); [discriminate|].
  destruct (stabilise_from _ _ _ _ _ _ _ _ _ _ _ _) as (f2, [acts2| |]) eqn:E2; try discriminate.
  destruct (subset_ck acts2 guess && (subset || subset_ck guess acts2)) eqn:E3; [|discriminate].
  intros X. injection X as <- <-. apply stabilise_from_found in E2; auto. split; auto.
  apply andb_true_iff in E3. destruct E3 as (E3 & E4). split; [apply subset_ck_spec; auto|].
  intros ->. apply subset_ck_spec. auto.
Qed.
End Sound.

(** Enlarging what is given and what is allowed. *)
Lemma level_good_weaken : forall insts (al al' : nat -> Prop) given ps, (forall x, al x -> al' x) ->
  level_good insts al given ps -> level_good insts al' given ps.
Proof.
  intros insts al al' given ps H (U & [L1 L2 L3 L4] & Hg & Hc). exists U. split; [split; auto|].
  split; auto. intros p Hp x Hx. apply H. eauto.
Qed.

Section FromGuess.
Variable place : fset -> list fset -> nat.
Variable clash : nat -> nat -> bool.
Variables max_depth max_height max_conflict_sz rounds : nat.
Variable insts : list inst.
Hypothesis Hproper : forall I, In I insts -> proper I.
Variable allowed : nat -> Prop.
Variable given : list nat.
Hypothesis Hne : insts <> [].
Variable base : list part.
Variable pick : nat -> node -> option nat.
Hypothesis Hpick : forall t nd a, pick t nd = Some a -> exists p, In p (parts nd) /\ In a (p_cands p).

Lemma from_guess_found : forall fuel f guess f' acts, level_good insts allowed given base ->
  (forall x, In x guess -> allowed x) ->
  from_guess place clash max_depth max_height max_conflict_sz rounds base pick fuel f guess = (f', Found acts) ->
  verified insts allowed (given ++ guess) acts.
Proof.
  intros fuel f guess f' acts HB Ha. unfold from_guess, pick_actions.
  destruct (revise place clash rounds f base (fold_right sadd [] guess) []) as (f1, [ps| |]) eqn:E; try discriminate;
    [|destruct (SearchModel.add_small _ _ _ _ _ _ _ _) as [f2| |]; discriminate].
  destruct HB as (U & HU & Hg & Hc).
  destruct (revise_same place clash insts Hproper allowed rounds f base U (fold_right sadd [] guess) [] f1 ps)
    as (U' & R1 & R2 & R3 & R4); auto.
  { intros x Hx. apply Ha. apply fold_sadd_in. auto. }
  { intros p Hp x Hx. left. eauto. }
  apply (stabilise_from_found place clash max_depth max_height max_conflict_sz rounds insts Hproper allowed); auto.
  exists U'. split; auto. split; auto. intros x Hx. apply in_app_or in Hx. destruct Hx as [Hx|Hx].
  - apply R2. auto.
  - apply R3. apply fold_sadd_in. auto.
Qed.
End FromGuess.
