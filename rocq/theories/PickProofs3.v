(** What each way of picking prefers. *)
From Coq Require Import List Arith Bool Lia Sorted Permutation.
From Verif Require Import FinLib ReachModel ReachSpec ReachProofs StabModel StabProofs RankModel RankSpec RankProofs RankProofs2 ConflictModel ConflictSpec ConflictProofs
  ActModel SearchModel SearchSpec SearchProofs2 SearchProofs3 PickModel PickSpec PickProofs PickProofs2.
Import ListNotations.

Lemma visited_tidy : forall place clash rounds base ps, Forall tidy base -> visited place clash rounds base ps -> Forall tidy ps.
Proof. intros place clash rounds base ps B V. induction V as [|f ps adds dels f' ps' V IH E]; auto. apply revise_tidy in E; auto. Qed.
Lemma start_tidy : forall place clash rounds f insts given f1 base, (forall I, In I insts -> proper I /\ NoDup (candidates0 I)) ->
  start place clash rounds f insts given = (f1, Good base) -> Forall tidy base.
Proof. intros place clash rounds f insts given f1 base H E. unfold start in E. apply revise_tidy in E; auto. apply fresh_tidy; auto. Qed.
Lemma visited_ranked : forall place clash rounds f insts given f1 base ps, (forall I, In I insts -> proper I /\ NoDup (candidates0 I)) ->
  start place clash rounds f insts given = (f1, Good base) -> visited place clash rounds base ps -> forall p, In p ps -> ranked p.
Proof.
  intros place clash rounds f insts given f1 base ps H E V p P. apply tidy_ranked. apply (proj1 (Forall_forall _ _) (visited_tidy _ _ _ _ _ (start_tidy _ _ _ _ _ _ _ _ H E) V)); auto.
Qed.

(** ** Ranks *)
Notation src p a := (sources (St (projT1 p)) (dec (projT1 p)) (univ (projT1 p)) (axn (projT1 p) a)).
Notation count p s := (enabled_count (St (projT1 p)) (fun a => src p a) (p_cands p) s).
Section Rank.
Variable p : part.
Hypothesis RK : ranked p.
Lemma src_iff : forall a s, src p a s = true <-> enabled_in (projT1 p) a s.
Proof. intros a s. apply (sources_spec _ (dec (projT1 p)) (univ (projT1 p)) (rd_all p RK)). Qed.
Lemma choices_filter : forall s, choices p s (filter (fun a => src p a s) (p_cands p)).
Proof. intros s. split; [apply NoDup_filter, (rd_nodup p RK)|]. intros a. rewrite filter_In, src_iff. tauto. Qed.
Lemma choices_count : forall s l, choices p s l -> length l = count p s.
Proof.
  intros s l (N & L). apply Permutation_length, NoDup_Permutation; auto; [apply (choices_filter s)|]. intros a. rewrite L. symmetry. apply (choices_filter s).
Qed.
Lemma part_rank_iff : full p -> forall n a, In a (part_rank p n) <-> resolves p n a.
Proof.
  intros F n a. unfold part_rank. rewrite (rk_cands _ _ _ _ _ (rd_ranks p RK F)). split.
  - intros (A & s & D & C & G). split; auto. exists s, (filter (fun a => src p a s) (p_cands p)). split; [split; auto|]. split; [apply choices_filter|]. split; auto. apply src_iff; auto.
  - intros (A & s & l & (_ & D) & C & L & G). split; auto. exists s. split; auto. split; [rewrite <- (choices_count s l C); auto|]. apply src_iff; auto.
Qed.
Lemma resolves_full : forall n a, resolves p n a -> full p.
Proof. intros n a (_ & s & l & (F & _) & _). exact F. Qed.
End Rank.

Lemma fewest_pick : forall opt nice f net draw prob nd, (forall p, In p (parts nd) -> ranked p) -> method opt <> FullyRandomPick ->
  (exists p n a, In p (parts nd) /\ resolves p n a) ->
  exists a p n, PickActionMRV opt nice f net draw prob nd = Picked a /\ In p (parts nd) /\ resolves p n a /\ fewest (parts nd) n.
Proof.
  intros opt nice f net draw prob nd RK MO (p0 & n0 & a0 & P0 & R0).
  destruct (pick_cases opt nice f net draw prob nd RK MO) as (a & A & [(p & r & P1 & P2 & P3 & P4 & _ & P5 & P6)|(N & _)]).
  - exists p0. split; auto. destruct R0 as (X & _). intros Y. rewrite Y in X. destruct X.
  - exists a, p, (mrv_rank (parts nd)). split; auto. split; auto. split; [apply part_rank_iff; auto|]. intros q m b Q X. apply (P6 q m Q); [eapply resolves_full; eauto|].
    apply part_rank_iff in X; auto; [|eapply resolves_full; eauto]. intros Y. rewrite Y in X. destruct X.
  - exfalso. pose proof R0 as X. apply part_rank_iff in X; auto; [|eapply resolves_full; eauto]. rewrite N in X; auto. eapply resolves_full; eauto.
Qed.

(** ** One instance *)
Section Single.
Variables (opt : pick_opt) (nice : inst -> nat -> nat) (f : family) (net : list pcsymm) (draw : nat) (nd : node) (p : part).
Hypothesis NP : parts nd = [p].
Hypothesis RK : ranked p.
Hypothesis MO : method opt <> FullyRandomPick.
Variable n : nat.
Hypothesis EX : exists a, resolves p n a.
Hypothesis FEW : fewest [p] n.
Lemma single_full : full p.
Proof. destruct EX as (a & A). eapply resolves_full; eauto. Qed.
Lemma single_mrv : mrv_rank [p] = n.
Proof.
  pose proof single_full as F. destruct EX as (a & A). destruct (mrv_fold [p] 0) as (H1 & H2 & _); [intros q [<-|[]] _; apply rank0_empty; auto|].
  fold (mrv_rank [p]) in H1, H2. apply part_rank_iff in A; auto. assert (B : part_rank p n <> []) by (intros Y; rewrite Y in A; destruct A).
  destruct (H2 p n (or_introl eq_refl) F B) as (B1 & B2). destruct H1 as [H1|(_ & q & [<-|[]] & _ & H1)]; [lia|].
  destruct (part_rank p (mrv_rank [p])) as [|b l] eqn:E; [congruence|]. assert (C : resolves p (mrv_rank [p]) b) by (apply part_rank_iff; auto; rewrite E; left; auto).
  apply FEW in C; [lia|left; auto].
Qed.
Lemma single_ne : part_rank p n <> [].
Proof. destruct EX as (a & A). apply part_rank_iff in A; auto; [|apply single_full]. intros Y. rewrite Y in A. destruct A. Qed.
Lemma single_pick : exists r cs, back_reach opt (projT1 p) (projT2 p) n (part_rank p n) = Some r /\ incl r (part_rank p n) /\
  pick_action_candidates opt nice f (projT1 p) (projT2 p) n (picks nd) = Some cs /\ cs <> [] /\ incl cs r /\
  PickActionMRV opt nice f net draw false nd = Picked (if randomize_pick opt && (randomize_depth opt <=? level nd) then nth (draw mod length cs) cs 0 else hd 0 cs).
Proof.
  pose proof single_full as F. pose proof single_ne as NE.
  destruct (candidates_sub opt nice f (projT1 p) (projT2 p) n (picks nd) (rd_all p RK) NE MO) as (r & cs & A & B & C & D & E).
  exists r, cs. split; auto. split; auto. split; auto. split; auto. split; auto.
  unfold PickActionMRV. rewrite NP, single_mrv. cbn [mrv_candidates]. unfold full in F. rewrite F.
  assert (L : length (ranks (projT2 p)) <=? n = false) by (apply Nat.leb_gt; apply (idx_in (projT1 p) (projT2 p) n NE)). rewrite L. cbn [orb].
  apply not_empty in NE. rewrite NE. rewrite B. destruct cs as [|c cs]; [congruence|]. cbn [is_empty orb]. destruct (method opt); try congruence; reflexivity.
Qed.
Lemma best_opt : forall b l r a, best b l = Some r -> In a r -> exists w, In (w, a) l /\ forall w' a', In (w', a') l -> if b : bool then w' <= w else w <= w'.
Proof.
  intros b l r a. unfold best. destruct (best_weight b l) as [w|] eqn:E; [|discriminate]. intros X. injection X as <-. rewrite in_saddl, in_map_iff. intros ((w0 & a0) & <- & X).
  apply filter_In in X. cbn in X. destruct X as (X & Y). apply Nat.eqb_eq in Y. subst w0. exists w. split; auto. cbn.
  assert (G : forall l m0 w, fold_left (fun (m : option nat) (wa : nat * nat) => match m with None => Some (fst wa) | Some w => Some (if b then Nat.max w (fst wa) else Nat.min w (fst wa)) end) l m0 = Some w ->
    (forall x, m0 = Some x -> if b then x <= w else w <= x) /\ forall w' a', In (w', a') l -> if b then w' <= w else w <= w').
  { clear. induction l as [|(x & a) l IH]; intros m0 w H; cbn in H.
    - subst. split; [intros x E; injection E as <-; destruct b; auto|intros ? ? []].
    - destruct (IH _ _ H) as (A & B). destruct m0 as [y|].
      + specialize (A _ eq_refl). cbn in A. split.
        * intros z E. injection E as <-. destruct b; lia.
        * intros w' a' [E|E]; [injection E as <- <-; destruct b; lia|apply (B w' a' E)].
      + specialize (A _ eq_refl). cbn in A. split; [discriminate|]. intros w' a' [E|E]; [injection E as <- <-; auto|apply (B w' a' E)]. }
  apply (G l None w E).
Qed.
(** Without -pick-reach and niceness *)
Lemma single_bias : pick_back_reach opt = false -> nicePolicy opt = NilNice ->
  exists b l a w, bias opt f (projT1 p) (projT2 p) n (picks nd) (part_rank p n) = Some (b, l) /\ PickActionMRV opt nice f net draw false nd = Picked a /\
    In (w, a) l /\ (forall w' a', In (w', a') l -> if b : bool then w' <= w else w <= w') /\ In a (part_rank p n).
Proof.
  intros NB NN. destruct single_pick as (r & cs & A & A' & B & C & D & E). unfold back_reach in A. rewrite NB in A. injection A as <-. revert B. unfold pick_action_candidates, back_reach. rewrite NB, NN.
  change (dl_cands (St (projT1 p)) (dl (projT1 p) (projT2 p) n)) with (part_rank p n). destruct (bias _ _ _ _ _ _ _) as [(b & l)|] eqn:EB; [|discriminate]. destruct (best b l) as [cs'|] eqn:EC; [|intros X; injection X as <-; congruence].
  intros X. injection X as ->. set (a := if randomize_pick opt && _ then _ else _) in E. assert (I : In a cs) by (apply chosen_in; auto). destruct (best_opt b l cs a EC I) as (w & W1 & W2).
  exists b, l, a, w. split; [reflexivity|]. split; [exact E|]. split; [exact W1|]. split; [exact W2|]. apply D; auto.
Qed.
End Single.

Lemma sadd_hd : forall a l, StronglySorted lt l -> StronglySorted lt (sadd a l) /\ (forall b, In b (sadd a l) -> hd 0 (sadd a l) <= b).
Proof.
  assert (H : forall l, StronglySorted lt l -> forall b, In b l -> hd 0 l <= b).
  { intros l L b B. destruct L as [|x l L F]; [destruct B|]. cbn. destruct B as [<-|B]; auto. apply (proj1 (Forall_forall _ _) F) in B. lia. }
  intros a l L. assert (S : StronglySorted lt (sadd a l)).
  { induction L as [|x l L IH F]; cbn [sadd]; [repeat constructor|]. destruct (Nat.ltb_spec a x).
    - constructor; [constructor; auto|]. constructor; auto. apply Forall_forall. intros y Y. apply (proj1 (Forall_forall _ _) F) in Y. lia.
    - destruct (Nat.eqb_spec a x); [constructor; auto|]. constructor; auto. apply Forall_forall. intros y Y. apply in_sadd in Y. destruct Y as [->|Y]; [lia|]. apply (proj1 (Forall_forall _ _) F) in Y; auto. }
  split; auto.
Qed.
Lemma saddl_sorted : forall l, StronglySorted lt (fold_right sadd [] l).
Proof. induction l as [|a l IH]; cbn; [constructor|]. apply sadd_hd; auto. Qed.
Lemma sorted_hd : forall l, StronglySorted lt l -> forall b, In b l -> hd 0 l <= b.
Proof.
  intros l L b B. destruct L as [|x l L F]; [destruct B|]. cbn. destruct B as [<-|B]; auto. apply (proj1 (Forall_forall _ _) F) in B. lia.
Qed.
Lemma sorted_nodup : forall l, StronglySorted lt l -> NoDup l.
Proof. intros l L. induction L as [|x l L IH F]; constructor; auto. intros X. apply (proj1 (Forall_forall _ _) F) in X. lia. Qed.
