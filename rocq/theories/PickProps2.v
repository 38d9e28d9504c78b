(** C89, continued: what chance decides, and the search with this way of picking. *)
From Coq Require Import List Arith Bool Lia Sorted.
From Verif Require Import FinLib ReachModel ReachSpec ReachProofs StabModel StabProofs RankModel RankSpec RankProps ConflictModel ConflictSpec ConflictProofs
  ActModel ActSpec SearchModel SearchSpec SearchEx SearchProofs2 SearchProofs3 SearchProofs4 SearchProofs8 SearchProps SearchProps2
  PickModel PickSpec PickProofs PickProofs2 PickProofs3 PickProofs4 PickProofs5 PickProps.
Import ListNotations.

Definition drawn (opt : pick_opt) (nd : node) : bool := randomize_pick opt && (randomize_depth opt <=? level nd).
Lemma best_hd : forall b l r w a, best b l = Some r -> best_weight b l = Some w -> In (w, a) l -> hd 0 r <= a.
Proof.
  intros b l r w a. unfold best. intros B W I. rewrite W in B. injection B as <-. apply sorted_hd; [apply saddl_sorted|]. apply in_saddl, in_map_iff. exists (w, a). split; auto. apply filter_In. cbn. rewrite Nat.eqb_refl. auto.
Qed.
Lemma best_weight_min : forall l w, best_weight false l = Some w -> (exists a, In (w, a) l) /\ forall w' a', In (w', a') l -> w <= w'.
Proof.
  intros l w H. split.
  - pose proof (best_weight_in false l None w H) as [X|X]; [discriminate|]. apply in_map_iff in X. destruct X as ((w0 & a) & E & X). cbn in E. subst. eauto.
  - intros w' a' I. assert (B : best false l = Some (fold_right sadd [] (map snd (filter (fun wa => fst wa =? w) l)))) by (unfold best; rewrite H; reflexivity).
    pose proof (best_weight_in false l None w H) as [X|X]; [discriminate|]. apply in_map_iff in X. destruct X as ((w0 & a) & E & X). cbn in E. subst w0.
    destruct (best_opt false l _ a B) as (w1 & W1 & W2).
    + apply in_saddl, in_map_iff. exists (w, a). split; auto. apply filter_In. cbn. rewrite Nat.eqb_refl. auto.
    + assert (w1 <= w) by (apply (W2 w a X)). pose proof (W2 w' a' I). cbn in *. destruct (Nat.eq_dec w1 w); [lia|]. assert (Q : w1 < w) by lia.
      exfalso. clear - H W1 Q. unfold best_weight in H. assert (G : forall l m0 w, fold_left (fun (m : option nat) (wa : nat * nat) => match m with None => Some (fst wa) | Some w => Some (Nat.min w (fst wa)) end) l m0 = Some w ->
        (forall x, m0 = Some x -> w <= x) /\ forall w' a', In (w', a') l -> w <= w').
      { clear. induction l as [|(x & a) l IH]; intros m0 w H; cbn in H.
        - subst. split; [intros x E; injection E as <-; auto|intros ? ? []].
        - destruct (IH _ _ H) as (A & B). destruct m0 as [y|]; specialize (A _ eq_refl); cbn in A.
          + split; [intros z E; injection E as <-; lia|]. intros w' a' [E|E]; [injection E as <- <-; lia|apply (B w' a' E)].
          + split; [discriminate|]. intros w' a' [E|E]; [injection E as <- <-; lia|apply (B w' a' E)]. }
      destruct (G l None w H) as (_ & G'). specialize (G' _ _ W1). lia.
Qed.

(** ** Without -random, or above the depth from which choices are random, it is the action with the least number: with the default
    method and with lex. *)
Theorem C89_lowest_number : forall opt nice f net draw place clash rounds insts given nd p n,
  single place clash rounds insts given nd p n -> (method opt = MRVLitePick \/ method opt = LexPick) -> pick_back_reach opt = false -> nicePolicy opt = NilNice ->
  drawn opt nd = false ->
  exists a, PickActionMRV opt nice f net draw false nd = Picked a /\ resolves p n a /\ forall b, resolves p n b -> a <= b.
Proof.
  intros opt nice f net draw place clash rounds insts given nd p n SG M NB NN DR. pose proof (single_ranked _ _ _ _ _ _ _ _ SG) as RK. destruct SG as (D & NP & EX & FE).
  assert (MO : method opt <> FullyRandomPick) by (destruct M as [M|M]; rewrite M; discriminate).
  destruct (single_pick opt nice f net draw nd p NP RK MO n EX FE) as (r & cs & A & A' & B & C & DD & E). pose proof (single_full p n EX) as F. pose proof (single_ne p RK n EX) as NE.
  unfold drawn in DR. rewrite DR in E. exists (hd 0 cs). split; auto. split; [apply part_rank_iff; auto; apply A', DD; destruct cs; [congruence|left; auto]|].
  intros b RB. apply part_rank_iff in RB; auto. destruct M as [M|M].
  - destruct (lite_rank opt nice f p n (picks nd) M NB NN NE) as (cs' & L1 & L2 & L3). rewrite B in L1. injection L1 as <-. apply sorted_hd; auto. apply L3; auto.
  - revert B. unfold pick_action_candidates, back_reach, bias. rewrite NB, NN, M. change (dl_cands _ (dl (projT1 p) (projT2 p) n)) with (part_rank p n).
    pose proof (rk_order _ _ _ _ _ (rd_ranks p RK F) n) as SO. change (dl_cands _ (nth n (ranks (projT2 p)) (dl0 _))) with (part_rank p n) in SO.
    destruct (best false (lex_map (projT1 p) (projT2 p) n (part_rank p n))) as [k|] eqn:EB; [|intros X; injection X as <-; congruence]. intros X. injection X as ->.
    assert (H0 : In (0, hd 0 (part_rank p n)) (lex_map (projT1 p) (projT2 p) n (part_rank p n))).
    { destruct (part_rank p n) as [|x l] eqn:PR; [congruence|]. cbn [hd]. unfold lex_map. cbn [fold_left]. unfold lex_step at 2. cbn [fst snd app].
      assert (OV : overlap (St (projT1 p)) (univ (projT1 p)) (dl_states _ (dl (projT1 p) (projT2 p) n)) (src p x) = true).
      { assert (X : In x (part_rank p n)) by (rewrite PR; left; auto). apply (rk_cands _ _ _ _ _ (rd_ranks p RK F)) in X. destruct X as (_ & s & S1 & S2 & S3). apply (overlap_spec _ _ (rd_all p RK)). exists s.
        split; auto. apply (rk_states _ _ _ _ _ (rd_ranks p RK F)). auto. }
      rewrite OV. assert (G : forall cs st y, In y (snd st) -> In y (snd (fold_left (lex_step (projT1 p)) cs st))).
      { clear. induction cs as [|c cs IH]; intros st y Y; cbn [fold_left]; auto. apply IH. unfold lex_step. destruct (overlap _ _ _ _); cbn [snd]; apply in_app_iff; auto. }
      apply G. left. auto. }
    destruct (best_weight false (lex_map (projT1 p) (projT2 p) n (part_rank p n))) as [w|] eqn:EW; [|unfold best in EB; rewrite EW in EB; discriminate].
    assert (w = 0) as ->. { destruct (best_weight_min _ _ EW) as (_ & X). specialize (X 0 _ H0). lia. }
    apply Nat.le_trans with (hd 0 (part_rank p n)); [eapply best_hd; eauto|]. apply sorted_hd; auto.
Qed.
Print Assumptions C89_lowest_number.

(** ** With -random, from that depth on, every one of them can be drawn. *)
Theorem C89_every_one_can_be_drawn : forall opt nice f net place clash rounds insts given nd p n,
  single place clash rounds insts given nd p n -> method opt = MRVLitePick -> pick_back_reach opt = false -> nicePolicy opt = NilNice ->
  randomize_pick opt = true -> randomize_depth opt <= level nd ->
  forall b, resolves p n b -> exists draw, PickActionMRV opt nice f net draw false nd = Picked b.
Proof.
  intros opt nice f net place clash rounds insts given nd p n SG M NB NN R1 R2 b RB. pose proof (single_ranked _ _ _ _ _ _ _ _ SG) as RK. destruct SG as (D & NP & EX & FE).
  assert (MO : method opt <> FullyRandomPick) by (rewrite M; discriminate). pose proof (single_full p n EX) as F. pose proof (single_ne p RK n EX) as NE.
  destruct (lite_rank opt nice f p n (picks nd) M NB NN NE) as (cs & L1 & L2 & L3). apply part_rank_iff in RB; auto. apply L3 in RB. apply (In_nth _ _ 0) in RB. destruct RB as (k & K1 & K2).
  exists k. destruct (single_pick opt nice f net k nd p NP RK MO n EX FE) as (r & cs' & _ & _ & B & _ & _ & E). rewrite L1 in B. injection B as <-.
  rewrite E, R1. apply Nat.leb_le in R2. rewrite R2. cbn [andb]. rewrite Nat.mod_small by auto. rewrite K2. reflexivity.
Qed.
Print Assumptions C89_every_one_can_be_drawn.

(** ** In a system with randomised variables, of the actions that differ in the guards of these only, the first is picked; and
    every such group can be drawn. *)
Lemma prob_pick : forall opt nice f net draw nd p n, parts nd = [p] -> ranked p -> method opt = MRVLitePick -> pick_back_reach opt = false -> nicePolicy opt = NilNice ->
  (exists a, resolves p n a) -> fewest [p] n ->
  exists cs, StronglySorted lt cs /\ (forall a, In a cs <-> resolves p n a) /\ cs <> [] /\
    PickActionMRV opt nice f net draw true nd = Picked (if drawn opt nd then nth (draw mod length (first_of_each net [] cs)) (first_of_each net [] cs) 0 else hd 0 (first_of_each net [] cs)).
Proof.
  intros opt nice f net draw nd p n NP RK M NB NN EX FE. pose proof (single_full p n EX) as F. pose proof (single_ne p RK n EX) as NE.
  destruct (lite_rank opt nice f p n (picks nd) M NB NN NE) as (cs & L1 & L2 & L3). assert (CN : cs <> []). { destruct (part_rank p n) as [|x l]; [congruence|]. intros Y. assert (X : In x cs) by (apply L3; left; auto). rewrite Y in X. destruct X. }
  exists cs. split; auto. split; [intros a; rewrite L3; apply part_rank_iff; auto|]. split; auto.
  unfold PickActionMRV. rewrite NP, (single_mrv p RK n EX FE), M. cbn [mrv_candidates]. unfold full in F. rewrite F.
  assert (L : length (ranks (projT2 p)) <=? n = false) by (apply Nat.leb_gt; apply (idx_in (projT1 p) (projT2 p) n NE)). rewrite L. cbn [orb].
  apply not_empty in NE. rewrite NE, L1. destruct cs as [|c cs]; [congruence|]. reflexivity.
Qed.
Theorem C89_random_twins : forall opt nice f net place clash rounds insts given nd p n,
  single place clash rounds insts given nd p n -> method opt = MRVLitePick -> pick_back_reach opt = false -> nicePolicy opt = NilNice ->
  (forall a, In a (p_cands p) -> a < actions_in net) ->
  (forall draw, exists a, PickActionMRV opt nice f net draw true nd = Picked a /\ resolves p n a /\ forall b, resolves p n b -> same_but_random net b a -> a <= b) /\
  (randomize_pick opt = true -> randomize_depth opt <= level nd -> forall b, resolves p n b ->
     exists draw a, PickActionMRV opt nice f net draw true nd = Picked a /\ same_but_random net a b).
Proof.
  intros opt nice f net place clash rounds insts given nd p n SG M NB NN RA. pose proof (single_ranked _ _ _ _ _ _ _ _ SG) as RK. destruct SG as (D & NP & EX & FE).
  assert (RG : forall a, resolves p n a -> a < actions_in net) by (intros a A; apply RA, A). split.
  - intros draw. destruct (prob_pick opt nice f net draw nd p n NP RK M NB NN EX FE) as (cs & C1 & C2 & C3 & C4). eexists. split; [exact C4|].
    pose proof (chosen_in (drawn opt nd) draw (first_of_each net [] cs) (first_of_each_ne net cs C3)) as X. set (a := if drawn opt nd then _ else _) in *.
    assert (CA : resolves p n a) by (apply C2, (first_of_each_sub net cs [] a X)). split; auto. intros b B S. destruct (each_first net cs [] a C1 X) as (_ & Y). apply Y; [apply C2; auto|].
    apply zero_random_iff; auto.
  - intros R1 R2 b B. destruct (prob_pick opt nice f net 0 nd p n NP RK M NB NN EX FE) as (cs & C1 & C2 & C3 & _).
    destruct (each_all net cs [] b (proj2 (C2 b) B)) as [[]|(a & A1 & A2)]. pose proof A1 as A3. apply (In_nth _ _ 0) in A1. destruct A1 as (k & K1 & K2).
    destruct (prob_pick opt nice f net k nd p n NP RK M NB NN EX FE) as (cs' & D1 & D2 & D3 & D4).
    assert (cs' = cs) as ->. { clear - C1 C2 D1 D2. apply RankProps.sorted_ext; auto. intros a. rewrite C2, D2. tauto. }
    exists k, a. unfold drawn in D4. apply Nat.leb_le in R2. rewrite R1, R2 in D4. cbn [andb] in D4. rewrite Nat.mod_small, K2 in D4 by auto. split; auto.
    apply zero_random_iff; auto. apply RG, C2, (first_of_each_sub net cs []); auto.
Qed.
Print Assumptions C89_random_twins.

(** ** The search that picks in this way, with any options, random numbers and conflicts: what C44 and C62 say holds of it, with no
    assumption on the choice. *)
Theorem C89_found_passed_the_check :
  forall opt nice fams net prob draws place clash max_depth max_height max_conflict_sz rounds insts given f0 f1 base fuel f2 f3 acts,
    insts <> [] -> (forall I, In I insts -> proper I /\ NoDup (candidates0 I)) ->
    start place clash rounds f0 insts given = (f1, Good base) ->
    add_stabilization place clash max_depth max_height max_conflict_sz rounds base (search_pick opt nice fams net prob draws) fuel f2 = (f3, Found acts) ->
    incl given acts /\ (forall a, In a acts -> usable insts given f0 a) /\ (forall I, In I insts -> passes_check I acts) /\
    forall I, In I insts -> plain I -> stabilises I acts.
Proof.
  intros opt nice fams net prob draws place clash md mh mc rounds insts given f0 f1 base fuel f2 f3 acts NE H S A.
  rewrite (add_stabilization_same place clash rounds md mh mc base _ (mended (search_pick opt nice fams net prob draws))) in A;
    [|intros t nd T; apply mended_same; auto|apply (start_tidy _ _ _ _ _ _ _ _ H S)].
  destruct (C44_found_passed_the_check _ _ _ _ _ _ _ _ _ _ _ _ _ _ _ _ NE H (mended_in _) S A) as (X & Y & Z). split; auto. split; auto. split; auto.
  apply (C44_found_stabilises _ _ _ _ _ _ _ _ _ _ _ _ _ _ _ _ NE H (mended_in _) S A).
Qed.
Print Assumptions C89_found_passed_the_check.

Theorem C89_not_found_means_none :
  forall opt nice fams net prob draws place clash max_conflict_sz rounds insts given f f1 base fuel f2,
    built place f -> insts <> [] -> length insts <= 2 ->
    (forall I, In I insts -> searchable I given (usable insts given f)) ->
    start place clash rounds f insts given = (f1, Good base) ->
    add_stabilization place clash 0 0 max_conflict_sz rounds base (search_pick opt nice fams net prob draws) fuel f1 = (f2, NotFound) ->
    ~ exists A, solution insts given (sets f) clash A.
Proof.
  intros opt nice fams net prob draws place clash mc rounds insts given f f1 base fuel f2 B NE L2 SE S A.
  assert (H : forall I, In I insts -> proper I /\ NoDup (candidates0 I)) by (intros I HI; split; [apply (se_proper _ _ _ (SE I HI))|apply (se_nodup _ _ _ (SE I HI))]).
  rewrite (add_stabilization_same place clash rounds 0 0 mc base _ (mended (search_pick opt nice fams net prob draws))) in A;
    [|intros t nd T; apply mended_same; auto|apply (start_tidy _ _ _ _ _ _ _ _ H S)].
  apply (C62_not_found_means_none _ _ _ _ _ _ _ _ _ _ _ _ B NE L2 SE (mended_in _) (mended_some _) S A).
Qed.
Print Assumptions C89_not_found_means_none.

(** ** Concrete cases: in [X] the candidates 2 and 3 are enabled, in [Y] 3 and 4, in [Z] 0, 1 and 3. *)
Definition pick_axn (a : nat) (s t : st4) : bool :=
  match s, t with X, Z => memb a [2; 3] | Y, L => memb a [3; 4] | Z, L => memb a [0; 1; 3] | _, _ => false end.
Definition ex_pick : inst := mk4 only_L pick_axn [0; 1; 2; 3; 4] false.
Definition ex_level : node := match start first_place no_clash 50 empty_family [ex_pick] [] with (_, Good ps) => mkNode ps [] 0 | _ => no_node end.
Definition ex_part : part := hd (existT _ ex_pick (init ex_pick)) (parts ex_level).
Definition with_opt m nc b r := mkPickOpt m nc b r 0.
Definition ex_chosen opt nice f draw := PickActionMRV opt nice f [] draw false ex_level.
Definition no_nice (_ : inst) (_ : nat) := 0.
Definition four_first (_ : inst) (a : nat) := if a =? 4 then 0 else 1.

Example C89_example_level : single first_place no_clash 50 [ex_pick] [] ex_level ex_part 2 /\ resolves ex_part 2 2 /\ resolves ex_part 2 3 /\ resolves ex_part 2 4 /\ resolves ex_part 3 0.
Proof.
  assert (D : during first_place no_clash 50 [ex_pick] [] ex_level).
  { split; [intros I [<-|[]]; split; [apply mk4_proper|repeat constructor; simpl; intuition discriminate]|]. destruct (start first_place no_clash 50 empty_family [ex_pick] []) as (f1, [ps| |]) eqn:E; try (vm_compute in E; discriminate).
    exists empty_family, f1, ps. split; auto. unfold ex_level. rewrite E. cbn [parts]. constructor. }
  assert (P : parts ex_level = [ex_part]).
  { assert (N : length (parts ex_level) = 1) by (vm_compute; reflexivity). unfold ex_part. destruct (parts ex_level) as [|q [|q' l]]; [discriminate|reflexivity|discriminate]. }
  assert (RK : ranked ex_part) by (apply (during_ranked _ _ _ _ _ _ D); rewrite P; left; auto).
  assert (F : full ex_part) by (vm_compute; reflexivity).
  assert (R : forall n a, In a (part_rank ex_part n) -> resolves ex_part n a) by (intros n a A; exact (proj1 (part_rank_iff ex_part RK F n a) A)).
  split; [split; [exact D|split; [exact P|split]]|].
  - exists 2. refine (R 2 2 (proj1 (smem_in _ _) _)). vm_compute. reflexivity.
  - intros q m b [<-|[]] H. apply (proj2 (part_rank_iff ex_part RK F m b)) in H.
    assert (Z : part_rank ex_part 0 = [] /\ part_rank ex_part 1 = []) by (split; vm_compute; reflexivity). destruct Z as (Z0 & Z1).
    destruct m as [|[|m]]; [rewrite Z0 in H; destruct H|rewrite Z1 in H; destruct H|lia].
  - split; [refine (R 2 2 (proj1 (smem_in _ _) _))|split; [refine (R 2 3 (proj1 (smem_in _ _) _))|split; [refine (R 2 4 (proj1 (smem_in _ _) _))|refine (R 3 0 (proj1 (smem_in _ _) _))]]]; vm_compute; reflexivity.
Qed.
Example C89_example_methods :
  ex_chosen (with_opt MRVLitePick NilNice false false) no_nice empty_family 0 = Picked 2 /\
  ex_chosen (with_opt LexPick NilNice false false) no_nice empty_family 0 = Picked 2 /\
  ex_chosen (with_opt GreedyPick NilNice false false) no_nice empty_family 0 = Picked 3 /\
  ex_chosen (with_opt LCVLitePick NilNice false false) no_nice empty_family 0 = Picked 3 /\
  ex_chosen (with_opt ConflictPick NilNice false false) no_nice (add_conflict first_place empty_family [0; 4]) 0 = Picked 4 /\
  ex_chosen (with_opt QuickPick NilNice false false) no_nice empty_family 0 = Picked 3 /\
  ex_chosen (with_opt FullyRandomPick NilNice false false) no_nice empty_family 1 = Picked 1 /\
  ex_chosen (with_opt MRVLitePick NilNice true false) no_nice empty_family 0 = Picked 3 /\
  ex_chosen (with_opt MRVLitePick BegNice false false) four_first empty_family 0 = Picked 4 /\
  ex_chosen (with_opt MRVLitePick NilNice false true) no_nice empty_family 2 = Picked 4.
Proof. repeat apply conj; vm_compute; reflexivity. Qed.

(** The torn pair of instances of C62: this search gives up as well, whatever the options are, for instance with -pick lcv. *)
Example C89_example_search :
  exists f1 base f2,
    start first_place no_clash 50 empty_family ex_torn [] = (f1, Good base) /\
    add_stabilization first_place no_clash 0 0 0 50 base (search_pick (with_opt LCVLitePick NilNice false false) no_nice (fun _ => empty_family) [] false (fun _ => 0)) 50 f1 = (f2, NotFound) /\
    ~ exists A, solution ex_torn [] [] no_clash A.
Proof.
  destruct (start first_place no_clash 50 empty_family ex_torn []) as (f1, [base| |]) eqn:E; try (vm_compute in E; discriminate).
  destruct (add_stabilization first_place no_clash 0 0 0 50 base (search_pick (with_opt LCVLitePick NilNice false false) no_nice (fun _ => empty_family) [] false (fun _ => 0)) 50 f1) as (f2, o) eqn:E2.
  exists f1, base, f2. assert (o = NotFound) as ->. { vm_compute in E. injection E as <- <-. vm_compute in E2. injection E2 as <- <-. auto. }
  split; auto. split; auto. destruct C62_example as (_ & _ & _ & _ & _ & _ & _ & _ & X). exact X.
Qed.

(** Two actions that differ in the guard of a randomised variable *)
Example C89_example_twins :
  let net := [{| accs := [{| a_type := WriteAccess; a_role := Direct; a_dom := 2 |}; {| a_type := RandomReadAccess; a_role := Direct; a_dom := 3 |}]; symms := [] |}] in
  actions_in net = 12 /\ same_but_random net 1 3 /\ zero_random net 3 = 1 /\ first_of_each net [] [1; 3; 4; 6; 7] = [1; 4; 6; 7] /\ ~ same_but_random net 1 6.
Proof.
  vm_compute. split; auto. split; [|split; auto; split; auto].
  - split; auto. split; [intros [|[|x]] H N1 N2; auto; try congruence; lia|]. intros [|[|x]] H W; auto; lia.
  - intros (_ & T & _). specialize (T 0). cbn in T. assert (0 < 2) as Z0 by lia. specialize (T Z0 ltac:(discriminate) ltac:(discriminate)). discriminate.
Qed.
