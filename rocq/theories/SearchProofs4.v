(** Soundness: whatever the search returns has been verified for every instance. *)
From Coq Require Import List Arith Bool Lia Permutation.
From Verif Require Import FinLib ReachModel ReachSpec ReachProofs StabModel StabProofs StabProofs2 StabProofs3 StabProofs4 RankModel RankSpec RankProofs
  ConflictModel ConflictSpec ConflictProofs SearchModel SearchSpec SearchProofs SearchProofs2 SearchProofs3.
Import ListNotations.

Section Sound.
Variable place : fset -> list fset -> nat.
Variable clash : nat -> nat -> bool.
Variables max_depth max_height max_conflict_sz rounds : nat.
Variable insts : list inst.
Hypothesis Hproper : forall I, In I insts -> proper I.
Variable allowed : nat -> Prop.
Variable given : list nat.

Definition level_good (ps : list part) : Prop :=
  exists U, level_ok insts allowed ps U /\ incl given U /\
    forall p, In p ps -> forall x, In x (p_cands p) -> allowed x.

(** What [Found] means. *)
Definition verified (acts : list nat) : Prop :=
  incl given acts /\ (forall a, In a acts -> allowed a) /\
  exists ps, map (@projT1 _ _) ps = insts /\
    forall p, In p ps ->
      NoDup (p_actions p) /\ (forall x, In x (p_actions p) <-> In x acts) /\
      exists H n m, verify_one p = Some (Accepted _ H n m).

Lemma verify_list_true : forall ps, verify_list ps = Good true ->
  forall p, In p ps -> exists H n m, verify_one p = Some (Accepted _ H n m).
Proof.
  induction ps as [|q ps IH]; intros H p Hp; [destruct Hp|]. simpl in H. unfold verify_part in H.
  destruct (verify_one q) as [[| | | | | | | | | |Hv n m]|] eqn:E; try discriminate. destruct Hp as [<-|Hp]; eauto.
Qed.

Lemma verify_solutions_true : forall ps, verify_solutions ps = Good true ->
  forall p, In p ps -> exists H n m, verify_one p = Some (Accepted _ H n m).
Proof.
  intros ps H p Hp. apply (verify_list_true _ H). apply in_or_app.
  destruct (p_no_partial p) eqn:E; [left|right]; apply filter_In; rewrite ?E; auto.
Qed.

Hypothesis Hne : insts <> [].

Lemma found_verified : forall ps, level_good ps -> verify_solutions ps = Good true ->
  verified (match ps with p :: _ => p_actions p | [] => [] end).
Proof.
  intros ps (U & [H1 H2 H3 H4] & Hg & _) Hv. destruct ps as [|p ps]; [simpl in H1; congruence|].
  assert (HU : forall x, In x U <-> In x (p_actions p)) by (apply H3; left; auto).
  split; [|split].
  - intros x Hx. apply HU. auto.
  - intros x Hx. apply H4, HU. auto.
  - exists (p :: ps). split; auto. intros q Hq. rewrite Forall_forall in H2. split; [apply H2; auto|].
    split; [|apply (verify_solutions_true _ Hv); auto].
    intros x. rewrite <- HU. symmetry. apply H3. auto.
Qed.

Lemma revise_good : forall f ps adds dels f' ps', level_good ps -> (forall x, In x adds -> allowed x) ->
  revise place clash rounds f ps adds dels = (f', Good ps') -> level_good ps'.
Proof.
  intros f ps adds dels f' ps' (U & HU & Hg & Hc) Ha E.
  destruct (revise_same place clash insts Hproper allowed rounds f ps U adds dels f' ps') as (U' & R1 & R2 & R3 & R4); auto.
  { intros p Hp x Hx. left. eauto. }
  exists U'. split; auto. split; auto. eapply incl_tran; eauto.
Qed.

(** What the picks may be. *)
Variable base : list part.
Variable pick : nat -> node -> option nat.
Hypothesis Hpick : forall t nd a, pick t nd = Some a -> exists p, In p (parts nd) /\ In a (p_cands p).

Notation good_nodes := (Forall (fun nd => level_good (parts nd))).
Notation fits st i := (i < length st).

Lemma nth_good : forall stack idx, good_nodes stack -> fits stack idx -> level_good (parts (nth idx stack no_node)).
Proof. intros stack idx H Hi. rewrite Forall_forall in H. apply H. apply nth_In. auto. Qed.

Lemma delete_good : forall fuel f stack idx a f' stack' idx', good_nodes stack -> fits stack idx ->
  delete_loop place clash max_conflict_sz rounds base fuel f stack idx a = (f', Good (stack', idx')) ->
  good_nodes stack' /\ fits stack' idx' /\ length stack' = length stack.
Proof.
  induction fuel as [|fuel IH]; intros f stack idx a f' stack' idx' HG HI; cbn [delete_loop]; [discriminate|].
  destruct (revise place clash rounds f (parts (nth idx stack no_node)) [] [a]) as (f1, [ps| |]) eqn:E; try discriminate.
  - intros X. injection X as <- <- <-. rewrite upd_length. split; auto. apply Forall_upd; auto. cbn [parts].
    apply revise_good in E; auto; [|intros x []]. apply nth_good; auto.
  - destruct (add_small _ _ _ _ _ _ _ _) as [f2| |]; try discriminate. cbv zeta.
    destruct (_ <=? _); [discriminate|]. apply IH; auto. destruct (idx =? 0); lia.
Qed.

Lemma search_found : forall fuel t f stack idx f' acts, good_nodes stack -> fits stack idx ->
  search place clash max_depth max_height max_conflict_sz rounds base pick fuel t f stack idx = (f', Found acts) ->
  verified acts.
Proof.
  induction fuel as [|fuel IH]; intros t f stack idx f' acts HG HI; cbn [search]; [discriminate|].
  set (nd := nth idx stack no_node).
  assert (Hnd : level_good (parts nd)) by (apply nth_good; auto).
  assert (Hcand : forall a, pick t nd = Some a -> allowed a).
  { intros a Ha. apply Hpick in Ha. destruct Ha as (p & H1 & H2). destruct Hnd as (U & _ & _ & H). eauto. }
  set (next := if (max_height =? 0) || (length stack <=? max_height)
               then S idx else if S idx =? length stack then 0 else S idx).
  assert (Hnext : next <= length stack).
  { unfold next. destruct ((max_height =? 0) || _); [lia|]. destruct (S idx =? length stack); lia. }
  assert (Hgo : forall X, 
    match pick t nd with
    | None =>
        match add_small place clash max_conflict_sz rounds base f (parts nd) (picks nd) with
        | Good f' => (f', NotFound)
        | _ => (f, Halted)
        end
    | Some a =>
        let nd1 := mkNode (parts nd) (picks nd ++ [a]) (S (level nd)) in
        let stack1 := if next =? length stack then stack ++ [nd1] else upd stack next nd1 in
        match revise place clash rounds f (parts nd) [a] [] with
        | (f', Stuck) => (f', Halted)
        | (f', Good ps) =>
            search place clash max_depth max_height max_conflict_sz rounds base pick fuel (S t) f'
              (upd stack1 next (mkNode ps (picks nd1) (level nd1))) next
        | (f', Bad) =>
            match add_small place clash max_conflict_sz rounds base f' (parts nd) (picks nd1) with
            | Good f1 =>
                match delete_loop place clash max_conflict_sz rounds base (S (length stack1)) f1 stack1 idx a with
                | (f2, Good (stack2, idx2)) =>
                    search place clash max_depth max_height max_conflict_sz rounds base pick fuel (S t) f2 stack2 idx2
                | (f2, Bad) => (f2, NotFound)
                | (f2, Stuck) => (f2, Halted)
                end
            | _ => (f', Halted)
            end
        end
    end = (X, Found acts) -> verified acts).
  { intros X. destruct (pick t nd) as [a|] eqn:Ep; [|destruct (add_small _ _ _ _ _ _ _ _); discriminate].
    cbv zeta. set (nd1 := mkNode (parts nd) (picks nd ++ [a]) (S (level nd))).
    set (stack1 := if next =? length stack then stack ++ [nd1] else upd stack next nd1).
    assert (HG1 : good_nodes stack1 /\ fits stack1 next /\ fits stack1 idx).
    { unfold stack1. destruct (Nat.eqb_spec next (length stack)).
      - rewrite app_length. cbn [length]. split; [|lia]. apply Forall_app. split; auto.
      - rewrite upd_length. split; [|lia]. apply Forall_upd; auto. }
    destruct HG1 as (HG1 & HG2 & HG3).
    destruct (revise place clash rounds f (parts nd) [a] []) as (f1, [ps| |]) eqn:E; try discriminate.
    - apply IH.
      + apply Forall_upd; auto. cbn [parts]. apply revise_good in E; auto. intros x [<-|[]]. auto.
      + rewrite upd_length. auto.
    - destruct (add_small _ _ _ _ _ _ _ _) as [f2| |]; try discriminate.
      destruct (delete_loop _ _ _ _ _ _ _ _ _ _) as (f3, [(stack2, idx2)| |]) eqn:Ed; try discriminate.
      apply delete_good in Ed; auto. destruct Ed as (D1 & D2 & D3). apply IH; auto. }
  destruct ((0 <? max_depth) && _); [discriminate|].
  destruct (existsb p_dead (parts nd)); [apply Hgo|].
  destruct (verify_solutions (parts nd)) as [[|]| |] eqn:Ev; try discriminate.
  - intros X. injection X as <- <-. apply found_verified; auto.
  - destruct (add_small _ _ _ _ _ _ _ _) as [f1| |]; try discriminate. cbv zeta. destruct (level nd <=? _); [discriminate|].
    apply IH; auto. destruct (idx =? 0); lia.
  - destruct (forallb _ _); [discriminate|]. apply Hgo.
Qed.

Lemma add_stabilization_found : forall fuel f f' acts, level_good base ->
  add_stabilization place clash max_depth max_height max_conflict_sz rounds base pick fuel f = (f', Found acts) ->
  verified acts.
Proof.
  intros fuel f f' acts HB. unfold add_stabilization. destruct (conflict_ck _ _); [discriminate|].
  apply search_found; [constructor; auto|simpl; lia].
Qed.

Lemma order_pick_in : forall ps acc a, order_pick ps acc = Some a ->
  acc = Some a \/ exists p, In p ps /\ In a (p_cands p).
Proof.
  induction ps as [|p ps IH]; intros acc a H; simpl in H; [auto|].
  destruct (p_no_partial p).
  - apply IH in H. destruct H as [H|(q & H1 & H2)]; auto. right. exists q. simpl. auto.
  - destruct (p_cands p) as [|c l] eqn:E; [discriminate|]. apply IH in H.
    destruct H as [H|(q & H1 & H2)]; [|right; exists q; simpl; auto].
    injection H as <-. right. exists p. simpl. rewrite E. simpl. auto.
Qed.

Lemma try_order_found : forall fuel f ps pk f' acts, level_good ps ->
  try_order place clash max_conflict_sz rounds base fuel f ps pk = (f', Found acts) -> verified acts.
Proof.
  induction fuel as [|fuel IH]; intros f ps pk f' acts HG; cbn [try_order]; [discriminate|].
  destruct (forallb _ ps).
  - destruct (match ps with p :: _ => p_dead p | [] => false end); [discriminate|].
    destruct (verify_solutions ps) as [[|]| |] eqn:Ev; try discriminate.
    + intros X. injection X as <- <-. apply found_verified; auto.
    + destruct (add_small _ _ _ _ _ _ _ _); discriminate.
    + destruct (add_small _ _ _ _ _ _ _ _); discriminate.
  - destruct (order_pick ps None) as [a|] eqn:Eo; [|discriminate].
    assert (Ha : allowed a).
    { apply order_pick_in in Eo. destruct Eo as [|(p & H1 & H2)]; [discriminate|]. destruct HG as (U & _ & _ & H). eauto. }
    destruct (revise place clash rounds f ps [a] []) as (f1, [ps1| |]) eqn:E; try discriminate.
    + apply IH. apply revise_good in E; auto. intros x [<-|[]]. auto.
    + destruct (add_small _ _ _ _ _ _ _ _) as [f2| |]; try discriminate.
      destruct (revise place clash rounds f2 ps [] [a]) as (f3, [ps1| |]) eqn:E2; try discriminate.
      apply IH. apply revise_good in E2; auto. intros x [].
Qed.
End Sound.

(** The base level after the given actions have been added. *)
Lemma start_good : forall place clash rounds f insts given f' ps,
  (forall I, In I insts -> proper I) -> (forall I, In I insts -> NoDup (candidates0 I)) ->
  start place clash rounds f insts given = (f', Good ps) ->
  level_good insts (fun a => In a given \/ (exists I, In I insts /\ In a (candidates0 I)) /\ ~ In a (impossible f)) given ps.
Proof.
  intros place clash rounds f insts given f' ps Hp Hn E. unfold start in E.
  set (allowed := fun a => _).
  destruct (revise_same place clash insts Hp allowed rounds f (fresh insts) []
    (fold_right sadd [] given) (fold_right sadd [] (impossible f)) f' ps) as (U' & R1 & R2 & R3 & R4); auto.
  - split.
    + unfold fresh. rewrite map_map. cbn [projT1]. apply map_id.
    + unfold fresh. apply Forall_forall. intros p Hi. apply in_map_iff in Hi. destruct Hi as (I & <- & Hi).
      apply init_shape. auto.
    + intros p Hi x. unfold fresh in Hi. apply in_map_iff in Hi. destruct Hi as (I & <- & Hi).
      cbn. tauto.
    + intros x [].
  - intros x Hx. rewrite fold_sadd_in in Hx. left. auto.
  - intros p Hi x Hx. unfold fresh in Hi. apply in_map_iff in Hi. destruct Hi as (I & <- & Hi). cbn in Hx.
    rewrite fold_sadd_in. destruct (in_dec Nat.eq_dec x (impossible f)); [right; auto|left; right; eauto].
  - exists U'. split; auto. split; auto. intros x Hx. apply R3. rewrite fold_sadd_in. auto.
Qed.

(** * Accepted means stabilising *)
Section Meaning.
Variable I : inst.
Hypothesis Hp : proper I.
Hypothesis Hpl : plain I.
Let Hall := pr_all I Hp.

Lemma closed_iff : forall (R Q : St I -> St I -> Prop) A, (forall x y, R x y <-> Q x y) ->
  (closed _ R A <-> closed _ Q A).
Proof. intros R Q A H. unfold closed. split; intros C x y H1 H2; apply (C x y); auto; apply H; auto. Qed.

Lemma run_iff : forall (R Q : St I -> St I -> Prop) f n, (forall x y, R x y <-> Q x y) ->
  (run _ R f n <-> run _ Q f n).
Proof. intros R Q f n H. unfold run. split; intros C i Hi; apply H; auto. Qed.

Lemma converges_iff : forall (R Q : St I -> St I -> Prop) A B, (forall x y, R x y <-> Q x y) ->
  (converges _ R A B <-> converges _ Q A B).
Proof.
  intros R Q A B H.
  assert (X : forall R Q : St I -> St I -> Prop, (forall x y, R x y <-> Q x y) -> converges _ R A B -> converges _ Q A B).
  { clear. intros R Q H (C1 & C2). split.
    - intros f F0 Fr. apply C1; auto. intros i. apply H. auto.
    - intros f n F0 Fr Fd. apply C2; auto.
      + intros i Hi. apply H. auto.
      + intros t Ht. apply (Fd t). apply H. auto. }
  split; apply X; auto. intros x y. symmetry. auto.
Qed.

Lemma cycle_iff : forall (R Q : St I -> St I -> Prop) x, (forall x y, R x y <-> Q x y) ->
  (on_cycle _ R x <-> on_cycle _ Q x).
Proof.
  intros R Q x H. unfold on_cycle. split; intros (n & Hn); exists n; revert Hn; apply steps_mono; intros a b; apply H.
Qed.

Lemma stab_accepted : forall A pcs,
  (exists H n m, stabilization_ck _ (dec I) (univ I) (fuel_of I) (sysm I) (sopt I) pcs (xn_of I A) (xn_of I A)
                 = Some (Accepted _ H n m)) <-> stabilises I A.
Proof.
  intros A pcs. destruct Hpl as [P1 P2 P3 P4 P5].
  assert (Hx : forall x y, xn_of I A x y = true <-> moves I A x y) by (apply xn_of_spec; auto).
  assert (Hf : length (univ I) < fuel_of I) by (unfold fuel_of; lia).
  rewrite (direct_exact (St I) (dec I) (univ I) Hall (fuel_of I) Hf (sysm I) (sopt I) pcs (xn_of I A) (xn_of I A)
             (pr_refl I Hp) (pr_sym I Hp) (pr_trans I Hp)); auto.
  2:{ rewrite P3. discriminate. }
  2:{ split; auto. }
  split.
  - intros (A1 & A2 & A3 & A4 & (A5 & A6 & A7) & A8). split; auto.
    + intros x H1 H2. apply (A2 x H1). apply Hx. auto.
    + apply (closed_iff _ _ _ Hx) in A3. exact A3.
    + apply (closed_iff _ _ _ Hx) in A5. exact A5.
    + apply (converges_iff _ _ _ _ Hx) in A4. exact A4.
    + intros Hs x y Hl. destruct (A6 Hs) as (B1 & B2). split.
      * intros H. apply B2; auto. apply Hx. auto.
      * intros H. apply Hx. apply B1; auto.
    + intros Hs x Hl. destruct (A7 Hs x Hl) as (y & Hy). exists y. apply Hx. auto.
    + intros Hs x Ha Hc. apply (A8 Hs x Ha). apply (cycle_iff _ _ x Hx). auto.
  - intros [B1 B2 B3 B4 B5 B6 B7 B8]. split; auto. split; [|split; [|split; [|split]]].
    + intros x H1 H2. apply (B2 x H1). apply Hx. auto.
    + apply (closed_iff _ _ _ Hx). exact B3.
    + apply (converges_iff _ _ _ _ Hx). exact B5.
    + split; [apply (closed_iff _ _ _ Hx); exact B4|]. split.
      * intros Hs. split; intros x y Hl H.
        -- apply Hx. apply (B6 Hs x y Hl). auto.
        -- apply (B6 Hs x y Hl). apply Hx. auto.
      * intros Hs x Hl. destruct (B7 Hs x Hl) as (y & Hy). exists y. apply Hx. auto.
    + intros Hs x Ha Hc. apply (B8 Hs x Ha). apply (cycle_iff _ _ x Hx). auto.
Qed.

Lemma moves_same : forall A B, (forall a, In a A <-> In a B) -> forall x y, moves I A x y <-> moves I B x y.
Proof. intros A B H x y. split; intros (a & H1 & H2); exists a; split; auto; apply H; auto. Qed.

Lemma stabilises_same : forall A B, (forall a, In a A <-> In a B) -> stabilises I A -> stabilises I B.
Proof.
  intros A B H [B1 B2 B3 B4 B5 B6 B7 B8]. pose proof (moves_same A B H) as M. split; auto.
  - intros x H1 H2. apply (B2 x H1). apply M. auto.
  - apply (closed_iff _ _ _ M) in B3. exact B3.
  - apply (closed_iff _ _ _ M) in B4. exact B4.
  - apply (converges_iff _ _ _ _ M) in B5. exact B5.
  - intros Hs x y Hl. rewrite <- (B6 Hs x y Hl). symmetry. apply M.
  - intros Hs x Hl. destruct (B7 Hs x Hl) as (y & Hy). exists y. apply M. auto.
  - intros Hs x Ha Hc. apply (B8 Hs x Ha). apply (cycle_iff _ _ x M). auto.
Qed.
End Meaning.

Lemma verified_stabilises : forall insts allowed given acts,
  (forall I, In I insts -> proper I) ->
  verified insts allowed given acts ->
  forall I, In I insts -> plain I -> stabilises I acts.
Proof.
  intros insts allowed given acts Hp (_ & _ & ps & Hm & H) I Hi Hpl. rewrite <- Hm in Hi. apply in_map_iff in Hi.
  destruct Hi as (p & Hq & Hi). destruct (H p Hi) as (_ & H2 & H3). unfold verify_one in H3.
  destruct p as (J & p). cbn [projT1] in Hq. subst J. cbn [projT1] in H3.
  assert (HI : In I insts) by (rewrite <- Hm; apply in_map_iff; exists (existT _ I p); auto).
  rewrite (pl_async I Hpl) in H3. apply (stab_accepted I (Hp I HI) Hpl) in H3.
  apply (stabilises_same I) with (2 := H3). exact H2.
Qed.
