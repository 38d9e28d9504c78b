(** C89: which action the search tries next. *)
From Coq Require Import List Arith Bool Lia Sorted.
From Verif Require Import FinLib ReachModel ReachSpec ReachProofs StabModel StabProofs RankModel RankSpec ConflictModel ConflictSpec ConflictProofs ConflictProps
  ActModel ActSpec SearchModel SearchSpec SearchEx SearchProofs2 SearchProofs3 SearchProofs4 SearchProps SearchProps2
  PickModel PickSpec PickProofs PickProofs2 PickProofs3 PickProofs4 PickProofs5.
Import ListNotations.

(** A level of the search for a protocol: its partial solutions come from the start by additions and deletions. *)
Definition during place clash rounds (insts : list inst) (given : list nat) (nd : node) : Prop :=
  (forall I, In I insts -> proper I /\ NoDup (candidates0 I)) /\
  exists f f1 base, start place clash rounds f insts given = (f1, Good base) /\ visited place clash rounds base (parts nd).
Lemma during_ranked : forall place clash rounds insts given nd, during place clash rounds insts given nd -> forall p, In p (parts nd) -> ranked p.
Proof. intros place clash rounds insts given nd (H & f & f1 & base & S & V). apply (visited_ranked _ _ _ _ _ _ _ _ _ H S V). Qed.

(** ** If there is a candidate, a candidate is picked: with every option, random number and set of conflicts. *)
Theorem C89_always_a_candidate : forall opt nice f net draw prob place clash rounds insts given nd,
  during place clash rounds insts given nd -> (exists p, In p (parts nd) /\ p_cands p <> []) ->
  exists a p, PickActionMRV opt nice f net draw prob nd = Picked a /\ In p (parts nd) /\ In a (p_cands p).
Proof. intros opt nice f net draw prob place clash rounds insts given nd D H. apply picked_in; auto. apply (during_ranked _ _ _ _ _ _ D). Qed.
Print Assumptions C89_always_a_candidate.

(** ** It resolves a state with the fewest choices: no unresolved state of any instance that is not lightweight has fewer
    enabled candidates (and at least one). *)
Theorem C89_fewest_choices_first : forall opt nice f net draw prob place clash rounds insts given nd,
  during place clash rounds insts given nd -> method opt <> FullyRandomPick ->
  (exists p n a, In p (parts nd) /\ resolves p n a) ->
  exists a p n, PickActionMRV opt nice f net draw prob nd = Picked a /\ In p (parts nd) /\ resolves p n a /\ fewest (parts nd) n.
Proof. intros opt nice f net draw prob place clash rounds insts given nd D M H. apply fewest_pick; auto. apply (during_ranked _ _ _ _ _ _ D). Qed.
Print Assumptions C89_fewest_choices_first.

Definition all_of (p : part) (n : nat) (l : list nat) : Prop := NoDup l /\ forall a, In a l <-> resolves p n a.
(** Of the instances with such states, it is one with the fewest candidates for them. *)
Theorem C89_smallest_set : forall opt nice f net draw prob place clash rounds insts given nd n,
  during place clash rounds insts given nd -> method opt = MRVLitePick -> pick_back_reach opt = false -> nicePolicy opt = NilNice ->
  (exists p a, In p (parts nd) /\ resolves p n a) -> fewest (parts nd) n ->
  exists a p l, PickActionMRV opt nice f net draw prob nd = Picked a /\ In p (parts nd) /\ resolves p n a /\ all_of p n l /\
    forall q k, In q (parts nd) -> all_of q n k -> k <> [] -> length l <= length k.
Proof.
  intros opt nice f net draw prob place clash rounds insts given nd n D M NB NN (p0 & a0 & P0 & R0) FE. pose proof (during_ranked _ _ _ _ _ _ D) as RK.
  assert (MO : method opt <> FullyRandomPick) by (rewrite M; discriminate).
  pose proof (resolves_full p0 n a0 R0) as F0.
  destruct (mrv_fold (parts nd) 0) as (A & B & _); [intros p P F; apply rank0_empty; auto|]. fold (mrv_rank (parts nd)) in A, B.
  assert (NE0 : part_rank p0 n <> []). { apply (part_rank_iff p0 (RK p0 P0) F0) in R0. intros Y. rewrite Y in R0. destruct R0. }
  destruct (B p0 n P0 F0 NE0) as (B1 & B2).
  assert (MR : mrv_rank (parts nd) = n).
  { destruct A as [A|(_ & q & Q1 & Q2 & Q3)]; [lia|]. destruct (part_rank q (mrv_rank (parts nd))) as [|b l] eqn:E; [congruence|].
    assert (X : resolves q (mrv_rank (parts nd)) b) by (apply (part_rank_iff q (RK q Q1) Q2); rewrite E; left; auto). apply FE in X; auto. lia. }
  destruct (mrv_candidates_spec opt nice f MO n (picks nd) (parts nd) []) as (cs & C1 & _ & C3); [intros p P; apply (rd_all p (RK p P))|].
  assert (CN : cs <> []) by (apply C3; right; eauto). destruct (smallest _ _ _ _ _ _ _ _ C1) as (_ & S2 & S3). destruct S3 as [S3|(p & P1 & P2 & P3 & P4)]; [congruence|].
  destruct (lite_rank opt nice f p n (picks nd) M NB NN P3) as (cs' & L1 & L2 & L3). rewrite P4 in L1. injection L1 as <-.
  set (cs1 := if prob then first_of_each net [] cs else cs). set (a := if randomize_pick opt && (randomize_depth opt <=? level nd) then nth (draw mod length cs1) cs1 0 else hd 0 cs1).
  exists a, p, cs. split; [|split; [exact P1|split; [|split]]].
  - unfold PickActionMRV. rewrite M, MR, C1. pose proof (proj2 (not_empty cs) CN) as E. rewrite E, E. reflexivity.
  - apply (part_rank_iff p (RK p P1) P2), L3. unfold a. assert (X : incl cs1 cs /\ cs1 <> []). { unfold cs1. destruct prob; [split; [apply first_of_each_sub|apply first_of_each_ne; auto]|split; [apply incl_refl|auto]]. }
    destruct X as (X & Y). apply X, chosen_in; auto.
  - split; [apply sorted_nodup; auto|]. intros b. rewrite L3. apply part_rank_iff; auto.
  - intros q k Q (K1 & K2) K3. destruct k as [|x k0]; [congruence|]. assert (RX : resolves q n x) by (apply K2; left; auto). pose proof (resolves_full q n x RX) as FQ.
    assert (QN : part_rank q n <> []). { apply (part_rank_iff q (RK q Q) FQ) in RX. intros Y. rewrite Y in RX. destruct RX. }
    destruct (lite_rank opt nice f q n (picks nd) M NB NN QN) as (cq & Q1 & Q2 & Q3). pose proof (S2 q cq Q FQ QN (idx_in _ _ _ QN) Q1) as LE.
    assert (LQ : length cq <= length (x :: k0)); [|lia]. apply NoDup_incl_length; [apply sorted_nodup; auto|]. intros y Y. apply K2. apply (part_rank_iff q (RK q Q) FQ), Q3; auto.
Qed.
Print Assumptions C89_smallest_set.

(** ** The options, for a single instance. [n]: the fewest choices *)
Definition single place clash rounds insts given (nd : node) (p : part) (n : nat) : Prop :=
  during place clash rounds insts given nd /\ parts nd = [p] /\ (exists a, resolves p n a) /\ fewest [p] n.
Lemma single_ranked : forall place clash rounds insts given nd p n, single place clash rounds insts given nd p n -> ranked p.
Proof. intros place clash rounds insts given nd p n (D & E & _). apply (during_ranked _ _ _ _ _ _ D). rewrite E. left; auto. Qed.

(** -pick-reach: an action that leads from such a state to a state that can already reach the invariant is preferred. *)
Definition adds_path (p : part) (n a : nat) : Prop :=
  exists s t c, unresolved p s /\ choices p s c /\ length c = n /\ axn (projT1 p) a s t = true /\ leads_back p t.
Theorem C89_reach_adds_a_path : forall opt nice f net draw place clash rounds insts given nd p n,
  single place clash rounds insts given nd p n -> method opt <> FullyRandomPick -> pick_back_reach opt = true ->
  (exists b, resolves p n b /\ adds_path p n b) ->
  exists a, PickActionMRV opt nice f net draw false nd = Picked a /\ resolves p n a /\ adds_path p n a.
Proof.
  intros opt nice f net draw place clash rounds insts given nd p n SG MO BR (b & B1 & B2). pose proof (single_ranked _ _ _ _ _ _ _ _ SG) as RK. destruct SG as (D & NP & EX & FE).
  destruct (single_pick opt nice f net draw nd p NP RK MO n EX FE) as (r & cs & A & A' & B & C & DD & E). pose proof (single_full p n EX) as F.
  unfold back_reach in A. rewrite BR in A. pose proof (rd_all p RK) as ALL. destruct (pre_reach_exact _ (dec (projT1 p)) (univ (projT1 p)) ALL (fuel_of (projT1 p)) (lo (projT2 p)) (hinv (projT2 p)) (fuel_enough _)) as (v & V1 & V2).
  rewrite V1 in A. set (cs1 := filter _ _) in A.
  assert (K : forall a, In a cs1 <-> In a (part_rank p n) /\ adds_path p n a).
  { intros a. unfold cs1. rewrite filter_In. assert (X : overlap (St (projT1 p)) (univ (projT1 p)) v (img _ (dec (projT1 p)) (univ (projT1 p)) (axn (projT1 p) a) (dl_states _ (dl (projT1 p) (projT2 p) n))) = true <-> adds_path p n a).
    { rewrite (overlap_spec _ _ ALL). split.
      - intros (t & T1 & T2). apply V2 in T1. apply (img_spec _ (dec (projT1 p)) _ ALL) in T2. destruct T2 as (s & S1 & S2). apply (rk_states _ _ _ _ _ (rd_ranks p RK F)) in S1. destruct S1 as (S1 & S3).
        exists s, t, (filter (fun a => src p a s) (p_cands p)). split; [split; auto|]. split; [apply choices_filter; auto|]. split; auto.
      - intros (s & t & c & (_ & U) & CH & L & S & LB). exists t. split; [apply V2; exact LB|]. apply (img_spec _ (dec (projT1 p)) _ ALL). exists s. split; auto.
        apply (rk_states _ _ _ _ _ (rd_ranks p RK F)). split; auto. rewrite <- (choices_count p RK s c CH). auto. }
    rewrite X. tauto. }
  assert (NE : is_empty cs1 = false). { apply not_empty. intros Y. assert (Z : In b cs1) by (apply K; split; auto; apply part_rank_iff; auto). rewrite Y in Z. destruct Z. }
  rewrite NE in A. injection A as <-. eexists. split; [exact E|]. apply (chosen_in (randomize_pick opt && (randomize_depth opt <=? level nd)) draw) in C. apply DD, K in C. destruct C as (C1 & C2).
  split; auto. apply part_rank_iff; auto.
Qed.
Print Assumptions C89_reach_adds_a_path.

(** Niceness: an action of a process with the least niceness.  Taken into account first, with any method; taken into account last,
    with the default one. *)
Lemma nicest_least : forall nice I cs a b, In a (nicest nice I cs) -> In b cs -> nice I a <= nice I b.
Proof.
  intros nice I cs. unfold nicest.
  assert (G : forall cs m l, (forall x, m = Some x -> forall a, In a l -> nice I a = x) -> (m = None -> l = []) ->
    exists m', fst (fold_left (nice_step nice I) cs (m, l)) = m' /\ (forall x, m' = Some x -> (forall a, In a (snd (fold_left (nice_step nice I) cs (m, l))) -> nice I a = x) /\
       (forall b, In b cs -> x <= nice I b) /\ (forall y, m = Some y -> x <= y)) /\ (m' = None -> cs = [] /\ m = None)).
  { induction cs0 as [|c cs0 IH]; intros m l H1 H2; cbn [fold_left].
    - exists m. split; auto. split; [|auto]. intros x ->. split; [apply (H1 x eq_refl)|]. split; [intros b []|]. intros y E. injection E as ->. auto.
    - unfold nice_step at 2 4. cbn [fst snd]. destruct m as [m|].
      + destruct (Nat.ltb_spec (nice I c) m) as [L|L].
        * destruct (IH (Some (nice I c)) [c]) as (m' & M1 & M2 & M3); [intros x E a [<-|[]]; congruence|discriminate|]. exists m'. split; auto. split; [|intros E; destruct (M3 E); discriminate].
          intros x E. destruct (M2 x E) as (A & B & C). specialize (C _ eq_refl). split; auto. split; [intros b [<-|Y]; auto|]. intros y Y. injection Y as <-. lia.
        * destruct (Nat.eqb_spec (nice I c) m) as [Q|Q].
          { destruct (IH (Some m) (sadd c l)) as (m' & M1 & M2 & M3); [intros x E a Y; apply in_sadd in Y; destruct Y as [->|Y]; [congruence|apply (H1 x E a Y)]|discriminate|].
            exists m'. split; auto. split; [|intros E; destruct (M3 E); discriminate]. intros x E. destruct (M2 x E) as (A & B & C). specialize (C _ eq_refl).
            split; auto. split; [intros b [<-|Y]; [lia|auto]|]. intros y Y. injection Y as <-. auto. }
          { destruct (IH (Some m) l) as (m' & M1 & M2 & M3); [exact H1|discriminate|]. exists m'. split; auto. split; [|intros E; destruct (M3 E); discriminate].
            intros x E. destruct (M2 x E) as (A & B & C). specialize (C _ eq_refl). split; auto. split; [intros b [<-|Y]; [lia|auto]|]. intros y Y. injection Y as <-. auto. }
      + destruct (IH (Some (nice I c)) [c]) as (m' & M1 & M2 & M3); [intros x E a [<-|[]]; congruence|discriminate|]. exists m'. split; auto. split; [|intros E; destruct (M3 E); discriminate].
        intros x E. destruct (M2 x E) as (A & B & C). specialize (C _ eq_refl). split; auto. split; [intros b [<-|Y]; auto|]. discriminate. }
  intros a b A B. destruct (G cs None []) as (m' & M1 & M2 & M3); [discriminate|auto|]. destruct m' as [x|]; [|destruct (M3 eq_refl) as (-> & _); destruct B].
  destruct (M2 x eq_refl) as (X & Y & _). rewrite (X a A). auto.
Qed.
Theorem C89_nicest_process : forall opt nice f net draw place clash rounds insts given nd p n,
  single place clash rounds insts given nd p n -> pick_back_reach opt = false ->
  (nicePolicy opt = BegNice /\ method opt <> FullyRandomPick \/ nicePolicy opt = EndNice /\ method opt = MRVLitePick) ->
  exists a, PickActionMRV opt nice f net draw false nd = Picked a /\ resolves p n a /\ forall b, resolves p n b -> nice (projT1 p) a <= nice (projT1 p) b.
Proof.
  intros opt nice f net draw place clash rounds insts given nd p n SG NB H. pose proof (single_ranked _ _ _ _ _ _ _ _ SG) as RK. destruct SG as (D & NP & EX & FE).
  assert (MO : method opt <> FullyRandomPick) by (destruct H as [(_ & M)|(_ & M)]; auto; rewrite M; discriminate).
  destruct (single_pick opt nice f net draw nd p NP RK MO n EX FE) as (r & cs & A & A' & B & C & DD & E). pose proof (single_full p n EX) as F. pose proof (single_ne p RK n EX) as NE.
  eexists. split; [exact E|]. pose proof (chosen_in (randomize_pick opt && (randomize_depth opt <=? level nd)) draw cs C) as CI. set (a := if _ : bool then nth _ _ _ else _) in CI |- *.
  split; [apply part_rank_iff; auto|]. intros b RB. apply part_rank_iff in RB; auto. revert B. unfold pick_action_candidates, back_reach. rewrite NB.
  change (dl_cands _ (dl (projT1 p) (projT2 p) n)) with (part_rank p n). destruct H as [(NN & _)|(NN & M)]; rewrite NN.
  - destruct (nicest_sub nice (projT1 p) (part_rank p n)) as (N1 & N2).
    destruct (bias_sub opt nice f (projT1 p) (projT2 p) n (picks nd) (rd_all p RK) NE MO (nicest nice (projT1 p) (part_rank p n)) (N2 NE) N1) as (bb & l & BB & _ & BL). rewrite BB.
    destruct (best bb l) as [k|] eqn:EB; [|intros X; injection X as <-; congruence]. intros X. injection X as ->. destruct (best_opt bb l cs a EB CI) as (w & W & _).
    apply (nicest_least nice (projT1 p) (part_rank p n)); auto. apply BL. apply (in_map snd) in W. exact W.
  - unfold bias. rewrite M. destruct (best true _) as [k|] eqn:EB; [|intros X; injection X as <-; congruence]. intros X. injection X as X. rewrite <- X in CI. apply (nicest_least nice (projT1 p) k a b CI).
    unfold best in EB. assert (BW : best_weight true (map (fun a => (0, a)) (part_rank p n)) = Some 0).
    { unfold best_weight. destruct (part_rank p n) as [|x l]; [congruence|]. cbn [map fold_left fst]. clear. induction l as [|y l IH]; cbn; auto. }
    rewrite BW in EB. injection EB as <-. apply in_saddl, in_map_iff. exists (0, b). split; auto. apply filter_In. split; auto. apply in_map_iff. exists b. auto.
Qed.
Print Assumptions C89_nicest_process.

(** -pick greedy: one for which the numbers of choices of the states it resolves have the greatest sum, each number counted once. *)
Theorem C89_greedy : forall opt nice f net draw place clash rounds insts given nd p n,
  single place clash rounds insts given nd p n -> method opt = GreedyPick -> pick_back_reach opt = false -> nicePolicy opt = NilNice ->
  exists a, PickActionMRV opt nice f net draw false nd = Picked a /\ resolves p n a /\
    forall b l k, resolves p n b -> resolved_ranks p a l -> resolved_ranks p b k -> list_sum k <= list_sum l.
Proof.
  intros opt nice f net draw place clash rounds insts given nd p n SG M NB NN. pose proof (single_ranked _ _ _ _ _ _ _ _ SG) as RK. destruct SG as (D & NP & EX & FE).
  pose proof (single_full p n EX) as F. assert (MO : method opt <> FullyRandomPick) by (rewrite M; discriminate).
  destruct (single_bias opt nice f net draw nd p NP RK MO n EX FE NB NN) as (bb & l & a & w & A & B & C & E & G). unfold bias in A. rewrite M in A.
  destruct (weigh _ _) as [l0|] eqn:W; [|discriminate]. injection A as <- <-. destruct (weigh_in _ _ _ W) as (W1 & W2).
  exists a. split; auto. split; [apply part_rank_iff; auto|]. intros b l k RB RA RKK. apply part_rank_iff in RB; auto. destruct (W2 b RB) as (wb & X1 & X2). destruct (W1 w a C) as (_ & Y).
  rewrite (greedy_exact p RK n EX FE a w l Y RA), (greedy_exact p RK n EX FE b wb k X2 RKK). apply (E wb b X1).
Qed.
Print Assumptions C89_greedy.

(** -pick lcv: one that leaves the fewest candidates behind, counted once for each number of choices of the states left unresolved. *)
Theorem C89_least_remaining : forall opt nice f net draw place clash rounds insts given nd p n,
  single place clash rounds insts given nd p n -> method opt = LCVLitePick -> pick_back_reach opt = false -> nicePolicy opt = NilNice ->
  exists a, PickActionMRV opt nice f net draw false nd = Picked a /\ resolves p n a /\
    forall b l k, resolves p n b -> remaining p a l -> remaining p b k -> length l <= length k.
Proof.
  intros opt nice f net draw place clash rounds insts given nd p n SG M NB NN. pose proof (single_ranked _ _ _ _ _ _ _ _ SG) as RK. destruct SG as (D & NP & EX & FE).
  pose proof (single_full p n EX) as F. assert (MO : method opt <> FullyRandomPick) by (rewrite M; discriminate).
  destruct (single_bias opt nice f net draw nd p NP RK MO n EX FE NB NN) as (bb & l & a & w & A & B & C & E & G). unfold bias in A. rewrite M in A.
  destruct (weigh _ _) as [l0|] eqn:W; [|discriminate]. injection A as <- <-. destruct (weigh_in _ _ _ W) as (W1 & W2).
  pose proof (proj1 (part_rank_iff p RK F n a) G) as RA. exists a. split; auto. split; auto. intros b l k RB LA LB. pose proof RB as RB'. apply part_rank_iff in RB'; auto. destruct (W2 b RB') as (wb & X1 & X2). destruct (W1 w a C) as (_ & Y).
  rewrite (lcv_exact p RK n EX a w l (proj1 RA) Y LA), (lcv_exact p RK n EX b wb k (proj1 RB) X2 LB). apply (E wb b X1).
Qed.
Print Assumptions C89_least_remaining.

(** -pick conflict: one that belongs, together with all picks so far, to a recorded conflict -- if there is such a one. *)
Definition in_conflict (f : family) (pk : list nat) (a : nat) : Prop := ~ In a pk /\ exists c, In c (sets f) /\ incl pk c /\ In a c.
Theorem C89_conflict : forall opt nice f net draw place clash rounds insts given nd p n,
  single place clash rounds insts given nd p n -> built place f -> method opt = ConflictPick -> pick_back_reach opt = false -> nicePolicy opt = NilNice ->
  (exists b, resolves p n b /\ in_conflict f (picks nd) b) ->
  exists a, PickActionMRV opt nice f net draw false nd = Picked a /\ resolves p n a /\ in_conflict f (picks nd) a.
Proof.
  intros opt nice f net draw place clash rounds insts given nd p n SG FB M NB NN (b & RB & CB). pose proof (single_ranked _ _ _ _ _ _ _ _ SG) as RK. destruct SG as (D & NP & EX & FE).
  pose proof (single_full p n EX) as F. assert (MO : method opt <> FullyRandomPick) by (rewrite M; discriminate).
  destruct (single_bias opt nice f net draw nd p NP RK MO n EX FE NB NN) as (bb & l & a & w & A & B & C & E & G). unfold bias in A. rewrite M in A. injection A as <- <-.
  assert (K : forall x, In x (superset_membs f (fs_of (picks nd)) (fs_of (cands (projT2 p)))) <-> In x (p_cands p) /\ in_conflict f (picks nd) x).
  { intros x. rewrite (C25_superset_members_exact place) by (auto using fs_of_ok). rewrite !fs_of_in. unfold in_conflict. split.
    - intros (X1 & X2 & c & C1 & C2 & C3). split; auto. split; auto. exists c. split; auto. split; auto. intros y Y. apply C2, fs_of_in; auto.
    - intros (X1 & X2 & c & C1 & C2 & C3). split; auto. split; auto. exists c. split; auto. split; auto. intros y Y. apply C2, fs_of_in; auto. }
  exists a. split; auto. split; [apply part_rank_iff; auto|]. revert C. unfold conflict_map. set (both := sand _ _).
  assert (BI : forall x, In x both <-> In x (part_rank p n) /\ In x (superset_membs f (fs_of (picks nd)) (fs_of (cands (projT2 p))))).
  { intros x. unfold both, sand. rewrite filter_In, smem_in. tauto. }
  assert (NE : is_empty both = false). { apply not_empty. intros Y. assert (Z : In b both) by (apply BI; split; [apply part_rank_iff; auto|apply K; split; auto; apply RB]). rewrite Y in Z. destruct Z. }
  rewrite NE. intros C. apply in_map_iff in C. destruct C as (x & X & C). injection X as _ ->. apply BI in C. destruct C as (_ & C). apply K in C. tauto.
Qed.
Print Assumptions C89_conflict.

(** -pick quick: one that enters the states that can already reach the invariant and is enabled outside of them; otherwise
    one that enters them.  With shadow variables and -puppet: one that is disabled in the invariant. *)
Definition enters (p : part) (a : nat) : Prop := exists s t, axn (projT1 p) a s t = true /\ leads_back p t.
Definition enabled_outside (p : part) (a : nat) : Prop := exists s, enabled_in (projT1 p) a s /\ ~ leads_back p s.
Definition disabled_inside (p : part) (a : nat) : Prop := forall s, hinv (projT2 p) s = true -> ~ enabled_in (projT1 p) a s.
Theorem C89_quick : forall opt nice f net draw place clash rounds insts given nd p n,
  single place clash rounds insts given nd p n -> method opt = QuickPick -> pick_back_reach opt = false -> nicePolicy opt = NilNice ->
  exists a, PickActionMRV opt nice f net draw false nd = Picked a /\ resolves p n a /\ forall b, resolves p n b ->
    if shadow_puppet _ (sysm (projT1 p)) then disabled_inside p b -> disabled_inside p a
    else (enters p b -> enters p a) /\ (enters p b -> enabled_outside p b -> enabled_outside p a).
Proof.
  intros opt nice f net draw place clash rounds insts given nd p n SG M NB NN. pose proof (single_ranked _ _ _ _ _ _ _ _ SG) as RK. destruct SG as (D & NP & EX & FE).
  pose proof (single_full p n EX) as F. assert (MO : method opt <> FullyRandomPick) by (rewrite M; discriminate).
  destruct (single_bias opt nice f net draw nd p NP RK MO n EX FE NB NN) as (bb & l & a & w & A & B & C & E & G). unfold bias in A. rewrite M in A.
  unfold quick_map in A. pose proof (rd_all p RK) as ALL. destruct (pre_reach_exact _ (dec (projT1 p)) (univ (projT1 p)) ALL (fuel_of (projT1 p)) (lo (projT2 p)) (hinv (projT2 p)) (fuel_enough _)) as (v & V1 & V2).
  rewrite V1 in A. cbn [option_map] in A. injection A as <- <-.
  assert (LB : forall s, v s = true <-> leads_back p s) by (intros s; apply V2). clear V1 V2.
  assert (EN : forall x, overlap _ (univ (projT1 p)) v (targets _ (dec (projT1 p)) (univ (projT1 p)) (axn (projT1 p) x)) = true <-> enters p x).
  { intros x. rewrite (overlap_spec _ _ ALL). split.
    - intros (t & T1 & T2). apply (targets_spec _ (dec (projT1 p)) _ ALL) in T2. destruct T2 as (s & S). exists s, t. split; auto. apply LB; auto.
    - intros (s & t & S & T). exists t. split; [apply LB; auto|]. apply (targets_spec _ (dec (projT1 p)) _ ALL). exists s; auto. }
  assert (OU : forall x, subset _ (univ (projT1 p)) (src p x) v = false <-> enabled_outside p x).
  { intros x. split.
    - intros S. destruct (existsb (fun s => src p x s && negb (v s)) (univ (projT1 p))) eqn:Q.
      + apply existsb_exists in Q. destruct Q as (s & _ & Q). apply andb_true_iff in Q. destruct Q as (Q1 & Q2). exists s. split; [apply src_iff; auto|]. intros Y. apply LB in Y. rewrite Y in Q2. discriminate.
      + exfalso. assert (X : subset _ (univ (projT1 p)) (src p x) v = true); [|congruence]. apply (subset_spec _ _ ALL). intros s S1. destruct (v s) eqn:VS; auto.
        assert (Z : existsb (fun s => src p x s && negb (v s)) (univ (projT1 p)) = true); [|congruence]. apply existsb_exists. exists s. rewrite S1, VS. auto.
    - intros (s & S1 & S2). destruct (subset _ _ _ _) eqn:Q; auto. exfalso. apply S2, LB. apply (proj1 (subset_spec _ _ ALL _ _) Q). apply src_iff; auto. }
  assert (IN : forall x, overlap _ (univ (projT1 p)) (src p x) (hinv (projT2 p)) = false <-> disabled_inside p x).
  { intros x. split.
    - intros Q s S Y. assert (Z : overlap _ (univ (projT1 p)) (src p x) (hinv (projT2 p)) = true); [|congruence]. apply (overlap_spec _ _ ALL). exists s. split; auto. apply src_iff; auto.
    - intros H. destruct (overlap _ _ _ _) eqn:Q; auto. apply (overlap_spec _ _ ALL) in Q. destruct Q as (s & S1 & S2). exfalso. apply (H s S2). apply (src_iff p RK); auto. }
  exists a. split; auto. split; [apply part_rank_iff; auto|]. intros b RB. apply part_rank_iff in RB; auto.
  assert (E' : forall wb, In wb (quick_weights (projT1 p) (projT2 p) v b) -> w <= wb).
  { intros wb WB. apply (E wb b). apply in_flat_map. exists b. split; auto. apply in_map_iff. exists wb. auto. }
  apply in_flat_map in C. destruct C as (a' & _ & C). apply in_map_iff in C. destruct C as (w' & Q & C). injection Q as -> ->. unfold quick_weights in C, E'.
  destruct (shadow_puppet _ _).
  - intros Q. apply IN in Q. rewrite Q in E'. specialize (E' 0 (or_introl eq_refl)). apply IN. destruct (overlap _ _ (src p a) _); auto. destruct C as [<-|[]]. lia.
  - split.
    + intros Q. apply EN in Q. rewrite Q in E'. apply EN. destruct (overlap _ _ v (targets _ _ _ (axn (projT1 p) a))); auto. destruct C as [<-|[]].
      destruct (subset _ _ (src p b) v); [specialize (E' 1 (or_introl eq_refl))|specialize (E' 0 (or_intror (or_introl eq_refl)))]; lia.
    + intros Q1 Q2. apply EN in Q1. apply OU in Q2. rewrite Q1, Q2 in E'. specialize (E' 0 (or_intror (or_introl eq_refl))). apply OU.
      destruct (overlap _ _ v (targets _ _ _ (axn (projT1 p) a))); [|destruct C as [<-|[]]; lia]. destruct (subset _ _ (src p a) v); auto. destruct C as [<-|[]]; lia.
Qed.
Print Assumptions C89_quick.
