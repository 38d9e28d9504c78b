(** Every partial solution that the search works on is ranked, so the way it picks actions meets what the theorems
    about the search ask for. *)
From Coq Require Import List Arith Bool Lia.
From Verif Require Import FinLib ReachModel ReachSpec ReachProofs StabModel RankModel RankSpec RankProofs ConflictModel ActModel SearchModel SearchSpec SearchProofs2 SearchProofs3 PickModel PickSpec PickProofs.
Import ListNotations.

Definition exact_ranks (I : inst) (p : pst I) : Prop := no_partial p = false ->
  ranks p = rank_deadlocks _ (dec I) (univ I) (fun a => sources _ (dec I) (univ I) (axn I a)) (cands p) (dead p).
Definition tidy (p : part) : Prop := proper (projT1 p) /\ shape (projT1 p) (projT2 p) /\ exact_ranks (projT1 p) (projT2 p).
Lemma tidy_ranked : forall p, tidy p -> ranked p.
Proof.
  intros [I p] (P & S & E). cbn in *. split; cbn.
  - apply (pr_all I P).
  - apply (sh_cands I p S).
  - intros F. rewrite (E F). apply (rank_deadlocks_exact _ (dec I) (univ I) (pr_all I P)).
Qed.

Section Search.
Variable place : fset -> list fset -> nat.
Variable clash : nat -> nat -> bool.

Lemma alone_exact : forall I f p adds dels f' p' a d r, alone place clash I f p adds dels = (f', Good (p', a, d, r)) -> exact_ranks I p'.
Proof.
  intros I f p adds dels f' p' a d r. unfold alone. destruct (no_partial p) eqn:NP.
  - intros E. injection E as <- E. unfold alone_light in E. destruct (negb _ || _); [|discriminate]. injection E as <- _ _ _. intros F. cbn in F. congruence.
  - unfold alone_full. destruct (add_all clash I p adds dels) as (((cs & acts) & dels') & all_in).
    destruct (negb (is_empty (sand adds dels'))); [discriminate|]. destruct (synchronous (sopt I) && _); [discriminate|].
    set (l := if synchronous (sopt I) then _ else _). set (cs' := fold_left _ dels' cs). set (h := rminus _ _ _ _ _).
    destruct (lo_cycles I acts l (hinv p)) as [scc| |]; try discriminate.
    destruct (negb (subset (St I) (univ I) scc _)).
    { destruct (negb (probabilistic _ (sysm I)) && _); [|discriminate]. destruct (find_livelock_actions _ _ _ _ _ _ _ _ _ _); discriminate. }
    intros E. injection E as <- E. revert E. unfold alone_tail.
    destruct (shadow_ck _ _ _ _ _ _ _ _ _) as [[| |hinv1]|]; try discriminate.
    destruct (negb (subset _ _ hinv1 (hinv p))); [discriminate|]. cbv zeta.
    destruct (negb (subset _ _ (unresolved_states I hinv1 l) _)); [discriminate|].
    destruct (weak_convergence_ck _ _ _ _ _ _ _ _) as [([|] & n)|]; try discriminate.
    unfold check_forward. cbn [ranks cands dead actions]. destruct (length _ <=? 1).
    + destruct (sat _ _ _) eqn:SA; [discriminate|]. destruct (conflict_ck f _); [discriminate|]. intros E. injection E as <- _ _ _. intros _. cbn [ranks cands dead].
      unfold rank_deadlocks. rewrite SA. reflexivity.
    + destruct (conflict_membs f _ _ _) as ([|] & membs); [|discriminate]. intros E. injection E as <- _ _ _. intros _. reflexivity.
Qed.
Lemma alone_part_tidy : forall f p adds dels f' p' a d r, tidy p -> alone_part place clash f p adds dels = (f', Good (p', a, d, r)) -> tidy p'.
Proof.
  intros f [I p] adds dels f' p' a d r (P & S & _). unfold alone_part. cbn [projT1 projT2] in *.
  destruct (alone place clash I f p adds dels) as (f1, [(((q, a1), d1), r1)| |]) eqn:E; try discriminate. intros X. injection X as <- <- <- <- <-.
  split; [exact P|]. split; [|apply (alone_exact I f p adds dels _ _ _ _ _ E)].
  apply (alone_revised place clash I P) in E; auto. destruct E as (_ & E). apply (rv_shape _ _ _ _ _ _ _ _ E).
Qed.
Lemma forall_upd : forall A (Q : A -> Prop) l i x, Forall Q l -> Q x -> Forall Q (upd l i x).
Proof.
  intros A Q l. induction l as [|y l IH]; intros i x H X; destruct i; cbn; auto; inversion H; subst; constructor; auto.
Qed.
Lemma sweep_tidy : forall n i f r f' r', Forall tidy (r_parts r) -> sweep place clash n i f r = (f', Good r') -> Forall tidy (r_parts r').
Proof.
  induction n as [|n IH]; intros i f r f' r' H; cbn [sweep]; [intros E; injection E as _ <-; auto|].
  destruct (r_keep r && is_empty (r_common r)); [intros E; injection E as _ <-; auto|].
  destruct (negb (r_force r) && _ && _); [apply IH; auto|].
  destruct (nth_error (r_parts r) i) as [p|] eqn:EP; [|discriminate].
  destruct (alone_part place clash f p _ _) as (f1, [(((p', a), d), rejs)| |]) eqn:EA; try discriminate.
  assert (T : tidy p'). { apply (alone_part_tidy _ _ _ _ _ _ _ _ _ (proj1 (Forall_forall _ _) H p (nth_error_In _ _ EP)) EA). }
  destruct (negb (is_empty a) || negb (is_empty rejs)); apply IH; cbn [r_parts]; apply forall_upd; auto.
Qed.
Lemma rounds_tidy : forall fuel f ps adds dels force f' ps', Forall tidy ps -> rounds_loop place clash fuel f ps adds dels force = (f', Good ps') -> Forall tidy ps'.
Proof.
  induction fuel as [|fuel IH]; intros f ps adds dels force f' ps' H; cbn [rounds_loop]; [discriminate|].
  destruct (sweep _ _ _ _ _ _) as (f1, [r| |]) eqn:E; try discriminate. apply sweep_tidy in E; auto. destruct (r_keep r); [apply IH; auto|]. intros X. injection X as _ <-. auto.
Qed.
Variable rounds : nat.
Lemma revise_tidy : forall f ps adds dels f' ps', Forall tidy ps -> revise place clash rounds f ps adds dels = (f', Good ps') -> Forall tidy ps'.
Proof.
  intros f ps adds dels f' ps' H. unfold revise. destruct (rounds_loop _ _ _ _ _ _ _ _) as (f1, [qs| |]) eqn:E; try discriminate.
  destruct (same_sizes qs); [|discriminate]. intros X. injection X as _ <-. apply (rounds_tidy _ _ _ _ _ _ _ _ H E).
Qed.
Lemma fresh_tidy : forall insts, (forall I, In I insts -> proper I /\ NoDup (candidates0 I)) -> Forall tidy (fresh insts).
Proof.
  intros insts H. apply Forall_forall. intros p P. apply in_map_iff in P. destruct P as (I & <- & P). destruct (H I P) as (A & B). split; [exact A|]. split; [apply init_shape; auto|].
  intros F. cbn [projT1 projT2] in *. unfold init in *. cbn [no_partial ranks cands dead] in *. rewrite F. reflexivity.
Qed.

Definition tidy_node (nd : node) : Prop := Forall tidy (parts nd).
Lemma nth_tidy : forall stack idx, Forall tidy_node stack -> tidy_node (nth idx stack no_node).
Proof.
  intros stack idx H. destruct (Nat.lt_ge_cases idx (length stack)) as [L|L]; [apply (proj1 (Forall_forall _ _) H), nth_In; auto|].
  rewrite nth_overflow by auto. constructor.
Qed.
Variables max_depth max_height max_conflict_sz : nat.
Variable base : list part.
Lemma delete_tidy : forall fuel f stack idx a f' stack' idx', Forall tidy_node stack ->
  delete_loop place clash max_conflict_sz rounds base fuel f stack idx a = (f', Good (stack', idx')) -> Forall tidy_node stack'.
Proof.
  induction fuel as [|fuel IH]; intros f stack idx a f' stack' idx' H; cbn [delete_loop]; [discriminate|].
  destruct (revise _ _ _ _ _ _ _) as (f1, [ps| |]) eqn:E; try discriminate.
  - intros X. injection X as <- <- <-. apply forall_upd; auto. apply revise_tidy in E; auto. apply (nth_tidy stack idx H).
  - destruct (add_small _ _ _ _ _ _ _ _) as [f2| |]; try discriminate. destruct (_ <=? _); [discriminate|]. apply IH; auto.
Qed.

(** Two ways to pick that agree on such levels lead the search to the same result. *)
Variables pick1 pick2 : nat -> node -> option nat.
Hypothesis SAME : forall t nd, tidy_node nd -> pick1 t nd = pick2 t nd.
Lemma search_same : forall fuel t f stack idx, Forall tidy_node stack ->
  search place clash max_depth max_height max_conflict_sz rounds base pick1 fuel t f stack idx =
  search place clash max_depth max_height max_conflict_sz rounds base pick2 fuel t f stack idx.
Proof.
  induction fuel as [|fuel IH]; intros t f stack idx H; [reflexivity|]. cbn [search]. pose proof (nth_tidy stack idx H) as ND. set (nd := nth idx stack no_node) in *.
  rewrite (SAME t nd ND).
  assert (B : match add_small place clash max_conflict_sz rounds base f (parts nd) (picks nd) with
    | Good f' => let idx' := if idx =? 0 then length stack - 1 else idx - 1 in if level nd <=? level (nth idx' stack no_node) then (f', NotFound)
                 else search place clash max_depth max_height max_conflict_sz rounds base pick1 fuel t f' stack idx' | _ => (f, Halted) end =
    match add_small place clash max_conflict_sz rounds base f (parts nd) (picks nd) with
    | Good f' => let idx' := if idx =? 0 then length stack - 1 else idx - 1 in if level nd <=? level (nth idx' stack no_node) then (f', NotFound)
                 else search place clash max_depth max_height max_conflict_sz rounds base pick2 fuel t f' stack idx' | _ => (f, Halted) end).
  { destruct (add_small _ _ _ _ _ _ _ _) as [f1| |]; auto. cbv zeta. destruct (_ <=? _); auto. }
  cbv zeta in B |- *. rewrite B. clear B.
  match goal with |- context [match pick2 t nd with None => ?u | Some a => @?v a end] => idtac end.
  destruct (pick2 t nd) as [a|]; [|reflexivity].
  set (next := if (max_height =? 0) || (length stack <=? max_height) then S idx else if S idx =? length stack then 0 else S idx).
  set (nd1 := mkNode (parts nd) (picks nd ++ [a]) (S (level nd))). set (stack1 := if next =? length stack then stack ++ [nd1] else upd stack next nd1).
  assert (S1 : Forall tidy_node stack1). { unfold stack1. destruct (next =? _); [apply Forall_app; split; auto; constructor; auto|apply forall_upd; auto]. }
  destruct (revise place clash rounds f (parts nd) [a] []) as (f1, [ps| |]) eqn:ER.
  - apply revise_tidy in ER; auto. rewrite (IH (S t) f1 (upd stack1 next (mkNode ps (picks nd1) (level nd1))) next) by (apply forall_upd; auto). reflexivity.
  - destruct (add_small place clash max_conflict_sz rounds base f1 (parts nd) (picks nd1)) as [f2| |]; auto.
    destruct (delete_loop _ _ _ _ _ _ _ _ _ _) as (f3, [(stack2 & idx2)| |]) eqn:ED; auto. apply delete_tidy in ED; auto. rewrite (IH (S t) f3 stack2 idx2 ED). reflexivity.
  - reflexivity.
Qed.
Lemma add_stabilization_same : forall fuel f, Forall tidy base ->
  add_stabilization place clash max_depth max_height max_conflict_sz rounds base pick1 fuel f =
  add_stabilization place clash max_depth max_height max_conflict_sz rounds base pick2 fuel f.
Proof.
  intros fuel f H. unfold add_stabilization. destruct (conflict_ck f _); auto. apply search_same. constructor; auto.
Qed.
End Search.

(** A way to pick that is always right, and agrees with PickActionMRV on tidy levels. *)
Definition mended (pick : nat -> node -> option nat) (t : nat) (nd : node) : option nat :=
  match pick t nd with
  | Some a => if existsb (fun p => smem a (p_cands p)) (parts nd) then Some a else hd_error (any_candidates (parts nd))
  | None => hd_error (any_candidates (parts nd))
  end.
Lemma hd_any : forall nd a, hd_error (any_candidates (parts nd)) = Some a -> exists p, In p (parts nd) /\ In a (p_cands p).
Proof.
  intros nd a H. destruct (any_in (parts nd)) as (p & P1 & P2 & P3); [intros E; rewrite E in H; discriminate|]. exists p. split; auto. rewrite <- P3. destruct (any_candidates (parts nd)); [discriminate|].
  injection H as <-. left; auto.
Qed.
Lemma mended_in : forall pick t nd a, mended pick t nd = Some a -> exists p, In p (parts nd) /\ In a (p_cands p).
Proof.
  intros pick t nd a. unfold mended. destruct (pick t nd) as [b|]; [|apply hd_any]. destruct (existsb _ _) eqn:E; [|apply hd_any].
  intros X. injection X as <-. apply existsb_exists in E. destruct E as (p & P & Q). exists p. split; auto. apply smem_in; auto.
Qed.
Lemma mended_some : forall pick t nd, (exists p, In p (parts nd) /\ p_cands p <> []) -> mended pick t nd <> None.
Proof.
  intros pick t nd H. apply any_some in H. unfold mended. destruct (any_candidates (parts nd)); [congruence|]. destruct (pick t nd); [destruct (existsb _ _)|]; discriminate.
Qed.
Lemma picked_in : forall opt nice f net draw prob nd, (forall p, In p (parts nd) -> ranked p) ->
  (exists p, In p (parts nd) /\ p_cands p <> []) ->
  exists a p, PickActionMRV opt nice f net draw prob nd = Picked a /\ In p (parts nd) /\ In a (p_cands p).
Proof.
  intros opt nice f net draw prob nd RK EX. assert (MD : method opt = FullyRandomPick \/ method opt <> FullyRandomPick) by (destruct (method opt); auto; right; discriminate).
  destruct MD as [M|M].
  - pose proof (any_some _ EX) as AN. destruct (any_in (parts nd) AN) as (p & P1 & P2 & P3). unfold PickActionMRV. rewrite M.
    destruct (any_candidates (parts nd)) as [|x l] eqn:E; [congruence|]. do 2 eexists. split; [reflexivity|]. split; [exact P1|]. rewrite <- P3. apply (chosen_in true draw (x :: l)). discriminate.
  - destruct (pick_cases opt nice f net draw prob nd RK M EX) as (a & A & [(p & r & P1 & P2 & P3 & P4 & _ & P5 & _)|(_ & p & P1 & P2)]).
    + exists a, p. split; auto. split; auto. apply P5 in P4. apply (rk_cands _ _ _ _ _ (rd_ranks p (RK p P1) P2)) in P4. tauto.
    + exists a, p. auto.
Qed.
Lemma pick_none : forall opt nice f net draw prob nd, (forall p, In p (parts nd) -> ranked p) ->
  (forall p, In p (parts nd) -> p_cands p = []) -> forall a, PickActionMRV opt nice f net draw prob nd <> Picked a.
Proof.
  intros opt nice f net draw prob nd RK NO a. assert (AN : any_candidates (parts nd) = []).
  { destruct (any_candidates (parts nd)) eqn:E; auto. destruct (any_in (parts nd)) as (p & P1 & P2 & _); [congruence|]. exfalso. apply P2. auto. }
  unfold PickActionMRV. rewrite AN. cbn [fold_right]. assert (MC : method opt <> FullyRandomPick -> mrv_candidates opt nice f (mrv_rank (parts nd)) (picks nd) (parts nd) [] = Good []).
  { intros M. destruct (mrv_candidates_spec opt nice f M (mrv_rank (parts nd)) (picks nd) (parts nd) []) as (cs & C1 & [-> |(p & r & P1 & P2 & P3 & _)] & _); auto.
    { intros p P. apply (rd_all p (RK p P)). }
    exfalso. apply P3. destruct (part_rank p _) as [|x l] eqn:E; auto. assert (X : In x (part_rank p (mrv_rank (parts nd)))) by (rewrite E; left; auto).
    apply (rk_cands _ _ _ _ _ (rd_ranks p (RK p P1) P2)) in X. rewrite (NO p P1) in X. destruct X as ([] & _). }
  destruct (method opt); try discriminate; rewrite MC by discriminate; discriminate.
Qed.
Lemma mended_same : forall opt nice fams net prob draws t nd, tidy_node nd ->
  search_pick opt nice fams net prob draws t nd = mended (search_pick opt nice fams net prob draws) t nd.
Proof.
  intros opt nice fams net prob draws t nd TD. assert (RK : forall p, In p (parts nd) -> ranked p) by (intros p P; apply tidy_ranked, (proj1 (Forall_forall _ _) TD); auto).
  unfold mended. destruct (any_candidates (parts nd)) as [|x l] eqn:E.
  - assert (NO : forall p, In p (parts nd) -> p_cands p = []).
    { intros p P. destruct (p_cands p) as [|y k] eqn:F; auto. exfalso. apply (any_some (parts nd)); auto. exists p. split; auto. congruence. }
    unfold search_pick. destruct (PickActionMRV _ _ _ _ _ _ _) as [a| |] eqn:F; auto. exfalso. apply (pick_none _ _ _ _ _ _ _ RK NO _ F).
  - destruct (picked_in opt nice (fams t) net (draws t) prob nd RK) as (a & p & A & P1 & P2).
    { destruct (any_in (parts nd)) as (p & P1 & P2 & _); [congruence|]. eauto. }
    unfold search_pick. rewrite A. replace (existsb (fun p => smem a (p_cands p)) (parts nd)) with true; auto. symmetry. apply existsb_exists. exists p. split; auto. apply smem_in; auto.
Qed.
