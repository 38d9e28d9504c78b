(** Completeness of the backtracking search for one or two instances. *)
From Coq Require Import List Arith Bool Lia Permutation.
From Verif Require Import FinLib ReachModel ReachSpec ReachProofs StabModel StabProofs StabProofs2 StabProofs3 StabProofs4 RankModel RankSpec RankProofs
  ConflictModel ConflictSpec ConflictProofs SearchModel SearchSpec SearchProofs SearchProofs2 SearchProofs3 SearchProofs4 SearchProofs5 SearchProofs6 SearchProofs7 SearchProofs8.
Import ListNotations.

Lemma verify_list_bad : forall ps, verify_list ps = Bad -> exists p, In p ps /\ verify_part p = Bad.
Proof.
  induction ps as [|p ps IH]; simpl; [discriminate|]. destruct (verify_part p) as [[|]| |] eqn:E; try discriminate.
  - intros H. destruct (IH H) as (q & H1 & H2). exists q. auto.
  - intros _. exists p. auto.
Qed.
Lemma verify_list_live : forall ps, verify_list ps = Good false -> exists p, In p ps /\ verify_part p = Good false.
Proof.
  induction ps as [|p ps IH]; simpl; [discriminate|]. destruct (verify_part p) as [[|]| |] eqn:E; try discriminate.
  - intros H. destruct (IH H) as (q & H1 & H2). exists q. auto.
  - intros _. exists p. auto.
Qed.
Lemma verify_in : forall ps p, In p (filter p_no_partial ps ++ filter (fun p => negb (p_no_partial p)) ps) -> In p ps.
Proof. intros ps p H. apply in_app_or in H. destruct H as [H|H]; apply filter_In in H; tauto. Qed.

Section Search.
Variable place : fset -> list fset -> nat.
Variable clash : nat -> nat -> bool.
Variables max_conflict_sz rounds : nat.
Variable insts : list inst.
Variable given : list nat.
Variable conflicts0 : list (list nat).
Variable allowed : nat -> Prop.
Hypothesis Htwo : length insts <= 2.
Hypothesis Hne : insts <> [].
Hypothesis Hproper : forall I, In I insts -> proper I.
Hypothesis Hplain : forall I, In I insts -> plain I.
Hypothesis Hbehav : forall I, In I insts -> behav _ (sysm I) <> FutureActiveShadow.
Hypothesis Hstyle : forall I, In I insts -> style _ (sysm I) <> FutureAndActiveShadow.
Hypothesis Hdrag : forall I, In I insts -> forall a, drags_shadow I a = false.
Hypothesis Hsh : forall I, In I insts -> forall x y, legit I x -> specified I x y -> moves I given x y.
Hypothesis Hharm : forall I, In I insts -> forall a, allowed a -> In a given \/ harmless I a.
Hypothesis Hlight : forall I, In I insts -> light I = true ->
  behav _ (sysm I) <> FutureSilent /\ forall a, allowed a -> In a given \/ obedient I a.

Notation sol := (solution insts given conflicts0 clash).
Notation safe := (safe place clash insts given conflicts0).
Notation good := (level_good insts allowed given).
Variable B : list nat.
Hypothesis HB : sol B.

Definition has_cand (ps : list part) (x : nat) : Prop := exists p, In p ps /\ In x (p_cands p).
Definition has_act (ps : list part) (x : nat) : Prop := exists p, In p ps /\ In x (p_actions p).
(** The level [ps], reached with the picks [pk], has kept all solutions with these picks. *)
Definition keeps (ps : list part) (pk : list nat) : Prop := forall S, sol S -> incl pk S ->
  exists S', sol S' /\ incl S' S /\ (forall p, In p ps -> consistent' given S' p [] []) /\
    (forall x, has_cand ps x -> In x S -> In x S').
Definition hopeless (pk : list nat) : Prop := forall S, sol S -> ~ incl pk S.

Lemma not_hopeless : ~ hopeless [].
Proof. intros H. apply (H B HB). intros x []. Qed.

Lemma add_safe : forall f pk, safe f -> hopeless pk -> safe (add_conflict place f (fs_of pk)).
Proof.
  intros f pk (H1 & H2) Hh. split; [apply built_add; auto; apply fs_of_ok|]. intros A HA X.
  assert (Y : conflict_ck (add_conflict place f (fs_of pk)) A = true) by (apply conflict_loop_spec; exact X).
  rewrite add_exact in Y. destruct Y as [Y|Y].
  - apply (H2 A HA). apply conflict_loop_spec. exact Y.
  - apply (Hh A HA). intros x Hx. apply Y. rewrite fs_of_in. auto.
Qed.

(** ** revise_actions from a level *)
Lemma revise_cands : forall f ps adds dels f' ps', good ps -> 
  revise place clash rounds f ps adds dels = (f', Good ps') -> forall x, has_cand ps' x -> has_cand ps x.
Proof.
  intros f ps adds dels f' ps' (U & [H1 H2 H3 H4] & _ & _) E x (p & Hp & Hx).
  destruct (revise_same place clash insts Hproper (fun x => In x U \/ In x adds \/ has_cand ps x) rounds f ps U adds dels f' ps')
    as (U' & [R1 R2 R3 R4] & R5 & R6 & R7); auto.
  - split; auto.
  - intros q Hq y Hy. left. right. right. exists q. auto.
  - assert (X : ~ In x (p_actions p)).
    { rewrite Forall_forall in R2. intros X. apply (sh_disjoint _ _ (R2 p Hp) x X Hx). }
    destruct (R7 p Hp x Hx) as [Y|[Y|Y]]; auto; exfalso; apply X; apply (R3 p Hp); auto.
Qed.

Lemma revise_safe : forall f ps adds dels f' r, safe f -> good ps -> (forall x, In x adds -> allowed x) ->
  revise place clash rounds f ps adds dels = (f', r) ->
  safe f' /\ forall ps', r = Good ps' -> map p_no_partial ps' = map p_no_partial ps /\ (forall p, In p ps' -> checked' p).
Proof.
  intros f ps adds dels f' r Hf (U & H1 & H2 & H3) Ha E.
  apply (revise_any place clash insts given conflicts0 allowed) with (B := B) (U := U) in E; auto.
  intros p Hp x Hx. left. apply (H3 p Hp x Hx).
Qed.

Lemma revise_keeps' : forall f ps pk adds dels f' r, safe f -> good ps -> keeps ps pk ->
  (forall x, In x adds -> allowed x /\ (has_cand ps x \/ has_act ps x)) ->
  (forall S, sol S -> incl pk S -> incl adds S -> forall x, In x dels -> ~ In x S) ->
  revise place clash rounds f ps adds dels = (f', r) ->
  (r = Bad -> hopeless (pk ++ adds)) /\ (forall ps', r = Good ps' -> keeps ps' (pk ++ adds)).
Proof.
  intros f ps pk adds dels f' r Hf HG HK Ha Hd E. pose proof HG as (U & H1 & H2 & H3).
  assert (X : forall S, sol S -> incl (pk ++ adds) S -> r <> Bad /\ forall ps', r = Good ps' ->
    exists S', sol S' /\ incl S' S /\ (forall p, In p ps' -> consistent' given S' p [] []) /\
    (forall x, has_cand ps' x -> In x S -> In x S')).
  { intros S HS Hi. assert (Hpk : incl pk S) by (intros x Hx; apply Hi, in_or_app; auto).
    assert (Hads : incl adds S) by (intros x Hx; apply Hi, in_or_app; auto).
    destruct (HK S HS Hpk) as (S1 & K1 & K2 & K3 & K4).
    pose proof (revise_sem place clash insts given conflicts0 allowed Htwo Hne Hproper Hplain Hbehav Hstyle Hdrag Hsh Hharm B HB rounds f ps U adds dels S1 f' r Hf H1) as M.
    assert (Mr : r <> Bad /\ forall ps', r = Good ps' -> exists S', sol S' /\ incl S' S1 /\
      forall p, In p ps' -> consistent' given S' p [] [] /\ forall x, In x (p_cands p) -> In x S1 -> In x S').
    { apply M; auto.
      - intros x Hx. apply (Ha x Hx).
      - intros p Hp x Hx. left. apply (H3 p Hp x Hx).
      - intros p Hp. apply (cons_grow given S1 p [] [] adds dels adds dels (K3 p Hp)).
        + intros x Hx. destruct (Ha x Hx) as (_ & [Y|(q & Hq & Y)]); [apply K4; auto|]. destruct (K3 q Hq) as [N1 _ _ _ _ _]. apply (N1 x Y).
        + intros x Hx Hx1. apply (Hd S HS Hpk Hads x Hx). auto.
        + intros x. simpl. tauto.
        + intros x. simpl. tauto. }
    destruct Mr as (M1 & M2). split; auto. intros ps' Er. destruct (M2 ps' Er) as (S2 & N1 & N2 & N3).
    exists S2. split; auto. split; [intros x Hx; auto|]. split; [intros p Hp; apply N3; auto|].
    intros x (p & Hp & Hx) HxS. apply (N3 p Hp); auto. apply K4; auto. subst r.
    apply (revise_cands f ps adds dels f' ps' HG E). exists p. auto. }
  split.
  - intros Er S HS Hi. apply (X S HS Hi). exact Er.
  - intros ps' Er S HS Hi. apply (X S HS Hi). exact Er.
Qed.

Lemma revise_keeps : forall f ps pk adds dels f' r, safe f -> good ps -> keeps ps pk ->
  (forall x, In x adds -> allowed x /\ has_cand ps x) ->
  (forall S, sol S -> incl pk S -> incl adds S -> forall x, In x dels -> ~ In x S) ->
  revise place clash rounds f ps adds dels = (f', r) ->
  (r = Bad -> hopeless (pk ++ adds)) /\ (forall ps', r = Good ps' -> keeps ps' (pk ++ adds)).
Proof.
  intros f ps pk adds dels f' r Hf HG HK Ha. apply revise_keeps'; auto. intros x Hx. destruct (Ha x Hx). auto.
Qed.

(** ** Learning from failures *)
Variable base : list part.
Hypothesis Hbase : good base.
Hypothesis Hbkeep : keeps base [].

Lemma trial_good : good (map trial_part base) /\ keeps (map trial_part base) [].
Proof.
  destruct Hbase as (U & [H1 H2 H3 H4] & Hg & Hc). split.
  - exists U. split; [|split; auto].
    + split.
      * rewrite map_map. cbn [trial_part projT1]. rewrite <- H1. apply map_ext. intros (I & q). reflexivity.
      * apply Forall_forall. intros p Hp. apply in_map_iff in Hp. destruct Hp as (q & <- & Hq).
        rewrite Forall_forall in H2. destruct (H2 q Hq) as [S1 S2 S3 S4]. split; auto.
      * intros p Hp. apply in_map_iff in Hp. destruct Hp as (q & <- & Hq). apply (H3 q Hq).
      * auto.
    + intros p Hp. apply in_map_iff in Hp. destruct Hp as (q & <- & Hq). apply (Hc q Hq).
  - intros S HS Hi. destruct (Hbkeep S HS Hi) as (S' & K1 & K2 & K3 & K4). exists S'. split; auto. split; auto. split.
    + intros p Hp. apply in_map_iff in Hp. destruct Hp as (q & <- & Hq). destruct (K3 q Hq) as [N1 N2 N3 N4 N5 N6].
      split; auto. cbn [trial_part projT1 projT2 no_partial hi actions cands]. intros X. apply N5.
      apply orb_false_iff in X. tauto.
    + intros x (p & Hp & Hx). apply in_map_iff in Hp. destruct Hp as (q & <- & Hq). apply K4. exists q. auto.
Qed.

Lemma trial_cand : forall x, has_cand base x -> has_cand (map trial_part base) x.
Proof. intros x (p & Hp & Hx). exists (trial_part p). split; [apply in_map; auto|auto]. Qed.

Lemma base_allowed : forall x, has_cand base x -> allowed x.
Proof. intros x (p & Hp & Hx). destruct Hbase as (U & _ & _ & Hc). apply (Hc p Hp x Hx). Qed.
Lemma base_allowed' : forall x, has_cand base x \/ has_act base x -> allowed x.
Proof.
  intros x [Hx|(p & Hp & Hx)]; [apply base_allowed; auto|]. destruct Hbase as (U & [L1 L2 L3 L4] & _ & _).
  apply L4. apply (L3 p Hp). auto.
Qed.
Lemma trial_known : forall x, has_cand base x \/ has_act base x -> has_cand (map trial_part base) x \/ has_act (map trial_part base) x.
Proof.
  intros x [Hx|(p & Hp & Hx)]; [left; apply trial_cand; auto|]. right. exists (trial_part p). split; [apply in_map; auto|auto].
Qed.

Lemma shrink_safe : forall todo f cur f', safe f -> hopeless cur -> (forall x, In x todo \/ In x cur -> has_cand base x \/ has_act base x) ->
  shrink place clash rounds base f todo cur = Good f' -> safe f'.
Proof.
  induction todo as [|x todo IH]; intros f cur f' Hf Hh Hc; cbn [shrink]; [intros E; injection E as <-; auto|].
  destruct trial_good as (TG & TK).
  assert (Hless : forall y, In y (sminus cur [x]) <-> In y cur /\ y <> x).
  { intros y. rewrite in_sminus. simpl. split; intros (Y1 & Y2); split; auto. intros [X|[]]; auto. }
  assert (Hal : forall y, In y (sminus cur [x]) -> allowed y /\ (has_cand (map trial_part base) y \/ has_act (map trial_part base) y)).
  { intros y Hy. apply Hless in Hy. destruct Hy as (Hy & _). split; [apply base_allowed'|apply trial_known]; auto. }
  destruct (revise place clash rounds f (map trial_part base) (sminus cur [x]) [x]) as (f1 & r) eqn:E.
  assert (Hx : forall S, sol S -> incl (sminus cur [x]) S -> In x S -> False).
  { intros S HS Hi HxS. apply (Hh S HS). intros y Hy. destruct (Nat.eq_dec y x) as [->|]; auto. apply Hi, Hless. auto. }
  destruct (revise_keeps' f (map trial_part base) [] (sminus cur [x]) [x] f1 r Hf TG TK Hal) as (R1 & _); auto.
  { intros S HS _ Hi y [<-|[]] Hy. apply (Hx S HS Hi Hy). }
  destruct r as [ps'| |].
  - destruct (revise_safe f _ _ _ f1 _ Hf TG (fun y Hy => proj1 (Hal y Hy)) E) as (R2 & _).
    apply IH; auto.
    + intros S HS Hi. apply (Hh S HS). intros y Hy. apply Hi. apply in_sadd. destruct (Nat.eq_dec y x); auto. right. apply Hless. auto.
    + intros y [Hy|Hy]; [apply Hc; left; right; auto|]. apply in_sadd in Hy. destruct Hy as [->|Hy]; [apply Hc; left; left; auto|].
      apply Hless in Hy. apply Hc. tauto.
  - destruct (revise_safe f _ _ _ f1 _ Hf TG (fun y Hy => proj1 (Hal y Hy)) E) as (R2 & _).
    specialize (R1 eq_refl). cbn [app] in R1. apply IH; auto.
    + apply add_safe; auto.
    + intros y [Hy|Hy]; [apply Hc; left; right; auto|]. apply Hless in Hy. apply Hc. tauto.
  - discriminate.
Qed.

Lemma add_small_safe : forall f ps pk f', safe f -> hopeless pk -> (forall x, In x pk -> has_cand base x \/ has_act base x) ->
  add_small place clash max_conflict_sz rounds base f ps pk = Good f' -> safe f'.
Proof.
  intros f ps pk f' Hf Hh Hc. unfold add_small. destruct (forallb p_no_conflict ps); [intros E; injection E as <-; auto|].
  destruct ((0 <? max_conflict_sz) && _); [intros E; injection E as <-; auto|].
  destruct (conflict_ck f (fs_of pk) && _); [intros E; injection E as <-; auto|].
  apply shrink_safe.
  - apply add_safe; auto.
  - intros S HS Hi. apply (Hh S HS). intros x Hx. apply Hi. rewrite fold_sadd_in. auto.
  - intros x [Hx|Hx]; auto. rewrite fold_sadd_in in Hx. auto.
Qed.

(** ** The stack *)
Record node_ok (nd : node) : Prop := mkNodeOk {
  nk_good : good (parts nd);
  nk_keeps : keeps (parts nd) (picks nd);
  nk_checked : forall p, In p (parts nd) -> checked' p;
  nk_light : map p_no_partial (parts nd) = map light insts;
  nk_cands : forall x, has_cand (parts nd) x -> has_cand base x;
  nk_picks : forall x, In x (picks nd) -> has_cand base x
}.

(** The slots up to [idx] hold the levels 0 to [idx], each with one pick more. *)
Record stack_ok (stack : list node) (idx : nat) : Prop := mkStackOk {
  sk_idx : idx < length stack;
  sk_nodes : forall k, k <= idx -> node_ok (nth k stack no_node) /\ level (nth k stack no_node) = k;
  sk_picks : picks (nth 0 stack no_node) = [] /\
    forall k, S k <= idx -> exists a, picks (nth (S k) stack no_node) = picks (nth k stack no_node) ++ [a]
}.

Lemma stack_down : forall stack idx, stack_ok stack (S idx) -> stack_ok stack idx.
Proof. 
  intros stack idx [H1 H2 (H3 & H4)]. split; [lia| |split; auto].
  - intros k Hk. apply H2. lia.
Qed.

Lemma stack_replace : forall stack idx nd, stack_ok stack idx -> node_ok nd -> level nd = idx ->
  picks nd = picks (nth idx stack no_node) -> stack_ok (upd stack idx nd) idx.
Proof.
  intros stack idx nd [H1 H2 (H3 & H4)] Hn Hl Hp.
  assert (Hpk : forall k, k <= idx -> picks (nth k (upd stack idx nd) no_node) = picks (nth k stack no_node)).
  { intros k Hk. destruct (Nat.eq_dec k idx) as [->|]; [rewrite nth_upd_same by auto; auto|rewrite nth_upd_other by auto; auto]. }
  split.
  - rewrite upd_length. auto.
  - intros k Hk. destruct (Nat.eq_dec k idx) as [->|]; [rewrite nth_upd_same by auto; auto|rewrite nth_upd_other by auto; auto].
  - split; [rewrite Hpk by lia; auto|]. intros k Hk. rewrite !Hpk by lia. apply H4. auto.
Qed.

Lemma stack_agree : forall stack stack' idx, stack_ok stack idx -> length stack <= length stack' ->
  (forall k, k <= idx -> nth k stack' no_node = nth k stack no_node) -> stack_ok stack' idx.
Proof.
  intros stack stack' idx [H1 H2 (H3 & H4)] Hl Hk. split; [lia| |split].
  - intros k Hle. rewrite Hk by auto. auto.
  - rewrite Hk by lia. auto.
  - intros k Hle. rewrite !Hk by lia. auto.
Qed.

(** Deleting an action whose addition is hopeless. *)
Lemma delete_sem : forall fuel f stack idx a f' r, safe f -> stack_ok stack idx ->
  hopeless (picks (nth idx stack no_node) ++ [a]) ->
  delete_loop place clash max_conflict_sz rounds base fuel f stack idx a = (f', r) ->
  match r with
  | Bad => False
  | Stuck => safe f'
  | Good (stack', idx') => safe f' /\ stack_ok stack' idx'
  end.
Proof.
  induction fuel as [|fuel IH]; intros f stack idx a f' r Hf HS Hh; cbn [delete_loop]; [intros E; injection E as <- <-; auto|].
  destruct (sk_nodes _ _ HS idx (le_n _)) as ([G1 G2 G3 G4 G5 G6] & Gl).
  set (nd := nth idx stack no_node) in *.
  destruct (revise place clash rounds f (parts nd) [] [a]) as (f1 & r1) eqn:E.
  destruct (revise_keeps f (parts nd) (picks nd) [] [a] f1 r1 Hf G1 G2) as (R1 & R2); auto.
  { intros x []. }
  { intros S HS' Hi _ x [<-|[]] HxS. apply (Hh S HS'). intros y Hy. apply in_app_or in Hy. destruct Hy as [Hy|[<-|[]]]; auto. }
  rewrite app_nil_r in *.
  destruct r1 as [ps| |].
  - destruct (revise_safe f _ _ _ f1 _ Hf G1 (fun x (Hx : In x []) => match Hx with end) E) as (R3 & R4).
    destruct (R4 ps eq_refl) as (R5 & R6). intros X. injection X as <- <-. split; auto.
    apply stack_replace; auto. split; cbn [parts picks]; auto.
    + apply (revise_good place clash rounds insts Hproper allowed given f (parts nd) [] [a] f1 ps); auto. intros x [].
    + rewrite R5. auto.
    + intros x Hx. apply G5. apply (revise_cands f (parts nd) [] [a] f1 ps G1 E x Hx).
  - destruct (revise_safe f _ _ _ f1 _ Hf G1 (fun x (Hx : In x []) => match Hx with end) E) as (R3 & _).
    specialize (R1 eq_refl). destruct (add_small _ _ _ _ _ _ _ _) as [f2| |] eqn:Ea; try (intros X; injection X as <- <-; exact R3).
    apply add_small_safe in Ea; auto. cbv zeta. destruct idx as [|idx].
    + exfalso. apply not_hopeless. destruct (sk_picks _ _ HS) as (X & _). rewrite <- X. exact R1.
    + cbn [Nat.eqb]. rewrite Nat.sub_succ, Nat.sub_0_r.
      destruct (sk_nodes _ _ HS idx) as (_ & Gl'); [lia|]. rewrite Gl, Gl'.
      replace (Datatypes.S idx <=? idx) with false by (symmetry; apply Nat.leb_gt; lia).
      destruct (sk_picks _ _ HS) as (_ & X). destruct (X idx (le_n _)) as (b & Hb). fold nd in Hb. rewrite Hb.
      rewrite last_last. apply IH; auto.
      * apply stack_down; auto.
      * rewrite <- Hb. exact R1.
  - destruct (revise_safe f _ _ _ f1 _ Hf G1 (fun x (Hx : In x []) => match Hx with end) E) as (R3 & _).
    intros X. injection X as <- <-. exact R3.
Qed.

Variable pick : nat -> node -> option nat.
Hypothesis Hpick : forall t nd a, pick t nd = Some a -> exists p, In p (parts nd) /\ In a (p_cands p).
Hypothesis Hpicks : forall t nd, (exists p, In p (parts nd) /\ p_cands p <> []) -> pick t nd <> None.

Lemma light_of : forall ps, map p_no_partial ps = map light insts -> map (@projT1 _ _) ps = insts ->
  forall p, In p ps -> no_partial (projT2 p) = light (projT1 p).
Proof. intros ps H1 H2. rewrite <- H2, map_map in H1. intros p Hp. apply (ext_in_map H1 p Hp). Qed.

Lemma level_not_bad : forall nd, node_ok nd -> existsb p_dead (parts nd) = false -> verify_solutions (parts nd) <> Bad.
Proof.
  intros nd [G1 G2 G3 G4 G5 G6] Hd E. unfold verify_solutions in E. apply verify_list_bad in E. destruct E as (p & Hp & E).
  apply verify_in in Hp. pose proof (G3 p Hp) as Hck. destruct G1 as (U & [L1 L2 L3 L4] & Hg & Hc).
  pose proof (light_of _ G4 L1 p Hp) as Hlp. rewrite Forall_forall in L2. pose proof (L2 p Hp) as Hs.
  assert (Hin : In (projT1 p) insts) by (rewrite <- L1; apply in_map; auto).
  assert (Hnd : forall s, dead (projT2 p) s = false).
  { apply (ReachProofs.sat_false _ _ (pr_all _ (Hproper _ Hin))). destruct (sat _ _ (dead (projT2 p))) eqn:Ed; auto.
    assert (X : existsb p_dead (parts nd) = true) by (apply existsb_exists; exists p; split; auto). congruence. }
  assert (Hal : forall a, In a (p_actions p) -> allowed a) by (intros a Ha; apply L4; apply (L3 p Hp); auto).
  destruct p as (I & q). cbn [projT1 projT2] in *.
  apply (verify_checked I (Hproper I Hin) (Hplain I Hin) given (Hbehav I Hin) (Hstyle I Hin) (Hsh I Hin) B q); auto.
  - apply (so_stab _ _ _ _ _ HB I Hin).
  - intros x Hx. apply (L3 _ Hp x). auto.
  - intros a Ha. destruct (Hharm I Hin a (Hal a Ha)); auto. left. apply (so_given _ _ _ _ _ HB). auto.
  - intros Hn. rewrite Hlp in Hn. destruct (Hlight I Hin Hn) as (X1 & X2). split; auto. intros a Ha.
    destruct (X2 a (Hal a Ha)); auto. left. apply (so_given _ _ _ _ _ HB). auto.
Qed.

Lemma live_hopeless : forall nd, node_ok nd -> verify_solutions (parts nd) = Good false -> hopeless (picks nd).
Proof.
  intros nd [G1 G2 G3 G4 G5 G6] E S HS Hi. unfold verify_solutions in E. apply verify_list_live in E. destruct E as (p & Hp & E).
  apply verify_in in Hp. destruct G1 as (U & [L1 L2 L3 L4] & Hg & Hc). destruct (G2 S HS Hi) as (S' & K1 & K2 & K3 & K4).
  assert (Hin : In (projT1 p) insts) by (rewrite <- L1; apply in_map; auto).
  pose proof (cn_acts _ _ _ _ _ _ (K3 p Hp)) as Hacts. destruct p as (I & q). cbn [projT1 projT2] in *.
  unfold verify_part, verify_one in E. cbn [projT1] in E. rewrite (pl_async I (Hplain I Hin)) in E.
  set (A := p_actions (existT _ I q)) in *.
  destruct (stabilization_ck _ _ _ _ _ _ _ _ _) as [[| | | | | | | | | |H n m]|] eqn:Ev; try discriminate.
  pose proof (Hproper I Hin) as Hp'. assert (Hf : length (univ I) < fuel_of I) by (unfold fuel_of; lia).
  apply (livelock_np _ (dec I) (univ I) (pr_all I Hp') (fuel_of I) Hf) in Ev.
  2: apply (pr_refl I Hp'). 2: apply (pr_sym I Hp'). 2: apply (pr_trans I Hp').
  2:{ rewrite (pl_prob I (Hplain I Hin)). discriminate. }
  2: apply (pl_prob I (Hplain I Hin)).
  destruct Ev as (_ & (x & X1 & X2) & _).
  apply (between_iff I _ (moves I A)) in X2; [|intros a b; apply (xn_of_spec I Hp')].
  apply (stab_between I S' (so_stab _ _ _ _ _ K1 I Hin) A x) in X2; [|exact Hacts].
  destruct X2 as (X2 & _). congruence.
Qed.

Lemma search_sem : forall fuel t f stack idx f' o, safe f -> stack_ok stack idx ->
  search place clash 0 0 max_conflict_sz rounds base pick fuel t f stack idx = (f', o) -> safe f' /\ o <> NotFound.
Proof.
  induction fuel as [|fuel IH]; intros t f stack idx f' o Hf HS; cbn [search]; [intros E; injection E as <- <-; split; [exact Hf|discriminate]|].
  destruct (sk_nodes _ _ HS idx (le_n _)) as (Hnd & Gl). set (nd := nth idx stack no_node) in *.
  pose proof Hnd as [G1 G2 G3 G4 G5 G6]. cbn [Nat.ltb Nat.leb andb Nat.eqb orb]. cbv zeta.
  set (go_on := match pick t nd with None => _ | Some a => _ end).
  assert (Hgo : (exists p, In p (parts nd) /\ p_cands p <> []) -> go_on = (f', o) -> safe f' /\ o <> NotFound).
  { intros Hc. unfold go_on. pose proof (Hpicks t nd Hc) as Hpn. destruct (pick t nd) as [a|] eqn:Ep; [|congruence].
    clear go_on. pose proof (Hpick t nd a Ep) as Hac.
    assert (Haa : forall x, In x [a] -> allowed x /\ has_cand (parts nd) x).
    { intros x [<-|[]]. split; auto. destruct Hac as (p & P1 & P2). destruct G1 as (U & _ & _ & H). apply (H p P1 a P2). }
    set (nd1 := mkNode (parts nd) (picks nd ++ [a]) (Datatypes.S (level nd))).
    set (stack1 := if Datatypes.S idx =? length stack then stack ++ [nd1] else upd stack (Datatypes.S idx) nd1).
    pose proof (sk_idx _ _ HS) as Hlen.
    assert (Hl1 : length stack <= length stack1 /\ Datatypes.S idx < length stack1 /\
      forall k, k <= idx -> nth k stack1 no_node = nth k stack no_node).
    { unfold stack1. destruct (Nat.eqb_spec (Datatypes.S idx) (length stack)).
      - rewrite app_length. cbn [length]. split; [lia|]. split; [lia|]. intros k Hk. apply app_nth1. lia.
      - rewrite upd_length. split; [lia|]. split; [lia|]. intros k Hk. apply nth_upd_other. lia. }
    destruct Hl1 as (Hl1 & Hl2 & Hl3).
    assert (HS1 : stack_ok stack1 idx) by (apply (stack_agree stack); auto).
    destruct (revise place clash rounds f (parts nd) [a] []) as (f1 & r1) eqn:E.
    destruct (revise_keeps f (parts nd) (picks nd) [a] [] f1 r1 Hf G1 G2 Haa) as (R1 & R2); auto.
    assert (Hpk1 : forall x, In x (picks nd ++ [a]) -> has_cand base x).
    { intros x Hx. apply in_app_or in Hx. destruct Hx as [Hx|[<-|[]]]; auto. }
    destruct r1 as [ps| |].
    - destruct (revise_safe f _ _ _ f1 _ Hf G1 (fun y Hy => proj1 (Haa y Hy)) E) as (R3 & R4).
      destruct (R4 ps eq_refl) as (R5 & R6). apply IH; auto.
      set (nd2 := mkNode ps (picks nd1) (level nd1)).
      assert (Hn2 : node_ok nd2).
      { split; cbn [nd2 nd1 parts picks]; auto.
        - apply (revise_good place clash rounds insts Hproper allowed given f (parts nd) [a] [] f1 ps); auto.
          intros x Hx. apply (Haa x Hx).
        - rewrite R5. auto.
        - intros x Hx. apply G5. apply (revise_cands f (parts nd) [a] [] f1 ps G1 E x Hx). }
      destruct HS1 as [Q1 Q2 (Q3 & Q4)]. split.
      + rewrite upd_length. auto.
      + intros k Hk. destruct (Nat.eq_dec k (Datatypes.S idx)) as [->|Hn].
        * rewrite nth_upd_same by auto. split; auto. cbn [nd2 nd1 level]. rewrite Gl. auto.
        * rewrite nth_upd_other by auto. apply Q2. lia.
      + split; [rewrite nth_upd_other by lia; auto|]. intros k Hk. rewrite (nth_upd_other _ _ _ k) by lia.
        destruct (Nat.eq_dec k idx) as [->|Hn].
        * rewrite nth_upd_same by auto. exists a. cbn [nd2 nd1 picks]. rewrite Hl3 by lia. reflexivity.
        * rewrite nth_upd_other by lia. apply Q4. lia.
    - destruct (revise_safe f _ _ _ f1 _ Hf G1 (fun y Hy => proj1 (Haa y Hy)) E) as (R3 & _).
      specialize (R1 eq_refl).
      destruct (add_small _ _ _ _ _ _ _ _) as [f2| |] eqn:Ea; try (intros X; injection X as <- <-; split; [exact R3|discriminate]).
      apply add_small_safe in Ea; auto.
      destruct (delete_loop _ _ _ _ _ _ _ _ _ _) as (f3 & r3) eqn:Ed.
      apply delete_sem in Ed; auto; [|rewrite Hl3 by lia; exact R1].
      destruct r3 as [(stack2 & idx2)| |]; [|destruct Ed|intros X; injection X as <- <-; split; [exact Ed|discriminate]].
      destruct Ed as (D1 & D2). apply IH; auto.
    - destruct (revise_safe f _ _ _ f1 _ Hf G1 (fun y Hy => proj1 (Haa y Hy)) E) as (R3 & _).
      intros X. injection X as <- <-. split; [exact R3|discriminate]. }
  destruct (existsb p_dead (parts nd)) eqn:Ed.
  - apply Hgo. apply existsb_exists in Ed. destruct Ed as (p & Hp & Hd). exists p. split; auto.
    destruct G1 as (U & [L1 _ _ _] & _). assert (Hin : In (projT1 p) insts) by (rewrite <- L1; apply in_map; auto).
    apply (ck_cands _ _ (G3 p Hp)). apply (ReachProofs.sat_spec _ _ (pr_all _ (Hproper _ Hin))). exact Hd.
  - destruct (verify_solutions (parts nd)) as [[|]| |] eqn:Ev.
    + intros E. injection E as <- <-. split; [exact Hf|discriminate].
    + pose proof (live_hopeless nd Hnd Ev) as Hh.
      destruct (add_small _ _ _ _ _ _ _ _) as [f2| |] eqn:Ea; try (intros X; injection X as <- <-; split; [exact Hf|discriminate]).
      apply add_small_safe in Ea; auto. destruct idx as [|idx].
      * exfalso. apply not_hopeless. destruct (sk_picks _ _ HS) as (X & _). rewrite <- X. exact Hh.
      * cbn [Nat.eqb]. rewrite Nat.sub_succ, Nat.sub_0_r.
        destruct (sk_nodes _ _ HS idx) as (_ & Gl'); [lia|]. rewrite Gl, Gl'.
        replace (Datatypes.S idx <=? idx) with false by (symmetry; apply Nat.leb_gt; lia).
        apply IH; auto. apply stack_down. auto.
    + exfalso. apply (level_not_bad nd Hnd Ed Ev).
    + intros E. injection E as <- <-. split; [exact Hf|discriminate].
Qed.

Lemma add_stabilization_sem : forall fuel f f' o, safe f ->
  (forall p, In p base -> checked' p) -> map p_no_partial base = map light insts ->
  add_stabilization place clash 0 0 max_conflict_sz rounds base pick fuel f = (f', o) -> safe f' /\ o <> NotFound.
Proof.
  intros fuel f f' o Hf Hck Hnp. unfold add_stabilization.
  destruct (conflict_ck f (fs_of _)) eqn:Ec.
  - exfalso. destruct (Hbkeep B HB) as (S' & K1 & K2 & K3 & _); [intros x []|].
    destruct Hf as (_ & Hrej). apply (Hrej S' K1).
    apply (rejected_mono _ (fs_of (match base with [] => [] | p :: _ => p_actions p end))); [apply conflict_loop_spec; exact Ec|].
    apply incl_fs. destruct base as [|p l]; [intros x []|]. apply (cn_acts _ _ _ _ _ _ (K3 p (or_introl eq_refl))).
  - apply search_sem; auto. split.
    + simpl. lia.
    + intros k Hk. assert (k = 0) by lia. subst k. cbn [nth]. split; auto. split; cbn [parts picks]; auto.
      intros x [].
    + cbn [nth picks]. split; auto. intros k Hk. lia.
Qed.
End Search.

(** * From the start *)
Lemma fresh_consistent : forall place clash insts given f S p, built place f ->
  (forall I, In I insts -> proper I) ->
  solution insts given (sets f) clash S -> In p (fresh insts) ->
  consistent' given S p (fold_right sadd [] given) (fold_right sadd [] (impossible f)).
Proof.
  intros place clash insts given f S p Hf Hproper HS Hp. unfold fresh in Hp. apply in_map_iff in Hp.
  destruct Hp as (I & <- & Hin). split; cbn [projT1 projT2 init actions cands no_partial hi].
  - intros x [].
  - intros x Hx. rewrite fold_sadd_in in Hx. apply (so_given _ _ _ _ _ HS). auto.
  - intros x Hx HxS. rewrite fold_sadd_in in Hx. apply (so_conflicts _ _ _ _ _ HS).
    destruct (built_inv place f Hf) as (_ & _ & Hi & _).
    apply (rejected_mono _ [x]); [apply conflict_loop_spec; apply Hi; auto|]. intros y [<-|[]]. auto.
  - intros x Hx. right. rewrite fold_sadd_in. auto.
  - intros E x y H. rewrite E. apply (xn_of_spec I (Hproper I Hin)). exact H.
  - left. intros x Hx. rewrite fold_sadd_in. destruct (so_cands _ _ _ _ _ HS I Hin x Hx); auto.
Qed.
