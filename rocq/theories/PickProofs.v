From Coq Require Import List Arith Bool Lia.
From Verif Require Import FinLib ReachModel ReachSpec ReachProofs StabModel RankModel RankSpec RankProofs ConflictModel ActModel SearchModel SearchProofs2 SearchProofs3 PickModel PickSpec.
Import ListNotations.

Lemma in_sadd : forall x y l, In x (sadd y l) <-> x = y \/ In x l.
Proof.
  intros x y l. induction l as [|z l IH]; cbn [sadd]; [cbn; intuition|]. destruct (y <? z) eqn:L; [cbn; intuition|]. destruct (Nat.eqb_spec y z) as [->|]; cbn; [intuition|].
  rewrite IH. intuition.
Qed.
Lemma in_saddl : forall x l, In x (fold_right sadd [] l) <-> In x l.
Proof. intros x l. induction l as [|y l IH]; cbn; [tauto|]. rewrite in_sadd, IH. intuition. Qed.
Lemma sadd_nonnil : forall a l, sadd a l <> [].
Proof. intros a [|z l] H; cbn [sadd] in H; [discriminate|]. destruct (a <? z); [discriminate|]. destruct (a =? z); discriminate. Qed.
Lemma saddl_nonnil : forall l, l <> [] -> fold_right sadd [] l <> [].
Proof. intros [|a l] H; [exfalso; apply H; reflexivity|]. apply sadd_nonnil. Qed.
Lemma not_empty : forall l : list nat, is_empty l = false <-> l <> [].
Proof. intros [|a l]; cbn; split; intros H; try discriminate; try congruence; auto. Qed.
Lemma smem_in : forall a l, smem a l = true <-> In a l.
Proof.
  intros a l. unfold smem. rewrite existsb_exists. split; [intros (b & B & E); apply Nat.eqb_eq in E; subst; auto|intros H; exists a; split; auto; apply Nat.eqb_refl].
Qed.

Section Nice.
Variable nice : inst -> nat -> nat.
Variable I : inst.
Lemma nice_fold : forall cs m l, (forall x, m = Some x -> l <> []) ->
  let st := fold_left (nice_step nice I) cs (m, l) in incl (snd st) (l ++ cs) /\ (l <> [] \/ cs <> [] -> snd st <> []).
Proof.
  induction cs as [|a cs IH]; intros m l H; cbn [fold_left].
  - cbn. rewrite app_nil_r. split; [apply incl_refl|]. intros [X|X]; congruence.
  - unfold nice_step at 2 4. cbn [fst snd]. destruct m as [m|].
    + assert (L : l <> []) by (apply (H m); auto). destruct (nice I a <? m).
      * destruct (IH (Some (nice I a)) [a]) as (A & B); [discriminate|]. split; [|intros _; apply B; left; discriminate].
        intros x X. apply A in X. apply in_or_app. cbn in X |- *. tauto.
      * destruct (nice I a =? m).
        -- destruct (IH (Some m) (sadd a l)) as (A & B); [intros _ _; apply sadd_nonnil|]. split; [|intros _; apply B; left; apply sadd_nonnil].
           intros x X. apply A, in_app_or in X. apply in_or_app. destruct X as [X|X]; [apply in_sadd in X; destruct X as [->|X]|]; cbn; auto.
        -- destruct (IH (Some m) l) as (A & B); [auto|]. split; [|intros _; apply B; auto]. intros x X. apply A, in_app_or in X. apply in_or_app. cbn. tauto.
    + destruct (IH (Some (nice I a)) [a]) as (A & B); [discriminate|]. split; [|intros _; apply B; left; discriminate].
      intros x X. apply A in X. apply in_or_app. cbn in X |- *. tauto.
Qed.
Lemma nicest_sub : forall cs, incl (nicest nice I cs) cs /\ (cs <> [] -> nicest nice I cs <> []).
Proof.
  intros cs. destruct (nice_fold cs None []) as (A & B); [discriminate|]. split; auto.
Qed.
End Nice.

Lemma best_weight_in : forall (b : bool) l m0 w, fold_left (fun (m : option nat) (wa : nat * nat) => match m with None => Some (fst wa) | Some w => Some (if b then Nat.max w (fst wa) else Nat.min w (fst wa)) end) l m0 = Some w ->
  m0 = Some w \/ In w (map fst l).
Proof.
  intros b l. induction l as [|[x a] l IH]; intros m0 w H; cbn in H; auto. apply IH in H. destruct H as [H|H]; [|right; right; auto]. destruct m0 as [y|].
  - assert (C : Nat.max y x = y \/ Nat.max y x = x) by lia. assert (D : Nat.min y x = y \/ Nat.min y x = x) by lia.
    destruct b; injection H as <-; cbn; [destruct C as [-> | ->]|destruct D as [-> | ->]]; auto.
  - injection H as <-. right. cbn. auto.
Qed.
Lemma best_weight_some : forall (b : bool) l x, exists w, fold_left (fun (m : option nat) (wa : nat * nat) => match m with None => Some (fst wa) | Some w => Some (if b then Nat.max w (fst wa) else Nat.min w (fst wa)) end) l (Some x) = Some w.
Proof. intros b l. induction l as [|[y a] l IH]; intros x; cbn; eauto. Qed.
Lemma best_sub : forall b l, l <> [] -> exists r, best b l = Some r /\ r <> [] /\ incl r (map snd l).
Proof.
  intros b l H. unfold best, best_weight. destruct (fold_left _ l None) as [w|] eqn:E.
  - eexists. split; [reflexivity|]. split.
    + apply saddl_nonnil. apply best_weight_in in E. destruct E as [E|E]; [discriminate|]. apply in_map_iff in E. destruct E as ((x & a) & E & Ia). cbn in E. subst x.
      intros X. assert (Y : In (w, a) (filter (fun wa => fst wa =? w) l)) by (apply filter_In; cbn; rewrite Nat.eqb_refl; auto). apply (in_map snd) in Y. rewrite X in Y. destruct Y.
    + intros x X. apply in_saddl, in_map_iff in X. destruct X as (wa & <- & X). apply filter_In in X. apply in_map. tauto.
  - destruct l as [|[x a] l]; [congruence|]. cbn in E. destruct (best_weight_some b l x) as (w & W). rewrite W in E. discriminate.
Qed.

Section Candidates.
Variable opt : pick_opt.
Variable nice : inst -> nat -> nat.
Variable f : family.
Variable I : inst.
Variable p : pst I.
Variable idx : nat.
Variable pk : list nat.
Hypothesis ALL : forall s : St I, In s (univ I).
Hypothesis NE : dl_cands _ (dl I p idx) <> [].
Hypothesis MO : method opt <> FullyRandomPick.
Notation cs0 := (dl_cands _ (dl I p idx)).

Lemma fuel_enough : length (univ I) < fuel_of I.
Proof. unfold fuel_of. lia. Qed.
Lemma idx_in : idx < length (ranks p).
Proof. destruct (Nat.lt_ge_cases idx (length (ranks p))) as [L|L]; auto. exfalso. apply NE. unfold dl. rewrite nth_overflow; auto. Qed.
Lemma back_reach_sub : exists cs, back_reach opt I p idx cs0 = Some cs /\ cs <> [] /\ incl cs cs0.
Proof.
  unfold back_reach. destruct (pick_back_reach opt); [|exists cs0; split; auto; split; auto; apply incl_refl].
  destruct (pre_reach_exact _ (dec I) (univ I) ALL (fuel_of I) (lo p) (hinv p) fuel_enough) as (v & -> & _).
  destruct (is_empty _) eqn:E.
  - exists cs0. split; auto. split; auto. apply incl_refl.
  - eexists. split; [reflexivity|]. split; [apply not_empty; auto|]. intros x X. apply filter_In in X. tauto.
Qed.
Lemma weigh_sub : forall w cs, (forall a, In a cs -> w a <> None) -> exists l, weigh w cs = Some l /\ map snd l = cs.
Proof.
  intros w cs. induction cs as [|a cs IH]; intros H; cbn; [exists []; auto|]. destruct (IH ltac:(intros b B; apply H; right; auto)) as (l & -> & L).
  destruct (w a) as [n|] eqn:E; [|exfalso; apply (H a); cbn; auto]. exists ((n, a) :: l). cbn. rewrite L. auto.
Qed.
Lemma lex_fold : forall cs st, map snd (snd (fold_left (lex_step I) cs st)) = map snd (snd st) ++ cs.
Proof.
  induction cs as [|a cs IH]; intros st; cbn [fold_left]; [rewrite app_nil_r; auto|]. rewrite IH. unfold lex_step.
  destruct (overlap _ _ _ _); cbn [snd]; rewrite map_app, <- app_assoc; reflexivity.
Qed.
Lemma revise_adds_only : forall a n i d, exists d', revise_loop _ (dec I) (univ I) (fun a => sources _ (dec I) (univ I) (axn I a)) [a] [] n i d = Some d'.
Proof.
  intros a n. induction n as [|n IH]; intros i d; cbn [revise_loop]; [eauto|]. unfold revise_dels.
  assert (E : forall l, sand l (sand l []) = []).
  { intros l. assert (S : sand l [] = []) by (unfold sand; induction l; cbn; auto). rewrite S. auto. }
  rewrite E. cbn [is_empty]. apply IH.
Qed.
Lemma greedy_some : forall a l w, (w <> None \/ exists j, In j l /\ In a (dl_cands _ (dl I p j))) ->
  fold_left (fun w j => if smem a (dl_cands _ (dl I p j)) then Some (match w with None => j | Some n => n + j end) else w) l w <> None.
Proof.
  intros a l. induction l as [|j l IH]; intros w H; cbn [fold_left].
  - destruct H as [H|(j & [] & _)]. auto.
  - apply IH. destruct (smem a _) eqn:E; [left; discriminate|]. destruct H as [H|(k & [<-|K] & A)]; auto; [|right; eauto].
    apply smem_in in A. rewrite A in E. discriminate.
Qed.
Lemma bias_sub : forall cs, cs <> [] -> incl cs cs0 -> exists b l, bias opt f I p idx pk cs = Some (b, l) /\ l <> [] /\ incl (map snd l) cs.
Proof.
  intros cs H S. unfold bias. destruct (method opt) eqn:M.
  - exists true. eexists. split; [reflexivity|]. split; [destruct cs; [congruence|discriminate]|]. rewrite map_map. cbn. rewrite map_id. apply incl_refl.
  - exists false, (lex_map I p idx cs). split; auto. unfold lex_map. pose proof (lex_fold cs (dl_states _ (dl I p idx), [])) as E. cbn [snd map app] in E. split.
    + intros X. rewrite X in E. cbn in E. congruence.
    + rewrite E. apply incl_refl.
  - destruct (weigh_sub (greedy_weight I p idx) cs) as (l & -> & L).
    + intros a A. apply greedy_some. right. exists idx. split; [apply in_seq; pose proof idx_in; lia|]. apply S; auto.
    + exists true, l. split; auto. split; [intros ->; cbn in L; congruence|]. rewrite L. apply incl_refl.
  - destruct (weigh_sub (lcv_weight I p) cs) as (l & -> & L).
    + intros a A. unfold lcv_weight, revise_deadlocks. destruct (revise_adds_only a (length (ranks p) - 1) 1 (ranks p)) as (d & ->). discriminate.
    + exists false, l. split; auto. split; [intros ->; cbn in L; congruence|]. rewrite L. apply incl_refl.
  - congruence.
  - exists false, (conflict_map f I p pk cs). split; auto. unfold conflict_map. destruct (is_empty _) eqn:E.
    + split; [destruct cs; [congruence|discriminate]|]. rewrite map_map. cbn. rewrite map_id. apply incl_refl.
    + apply not_empty in E. split; [intros X; apply map_eq_nil in X; auto|]. rewrite map_map. cbn. rewrite map_id. intros x X. apply filter_In in X. tauto.
  - unfold quick_map. destruct (pre_reach_exact _ (dec I) (univ I) ALL (fuel_of I) (lo p) (hinv p) fuel_enough) as (v & -> & _). cbn [option_map].
    exists false. eexists. split; [reflexivity|]. split.
    + destruct cs as [|a cs]; [congruence|]. cbn [flat_map]. assert (Q : quick_weights I p v a <> []).
      { unfold quick_weights. destruct (shadow_puppet _ _); [destruct (overlap _ _ _ _); discriminate|]. destruct (overlap _ _ _ _); [|discriminate]. destruct (subset _ _ _ _); discriminate. }
      destruct (quick_weights I p v a); [congruence|discriminate].
    + intros x X. apply in_map_iff in X. destruct X as ((w & y) & <- & X). apply in_flat_map in X. destruct X as (a & A & X). apply in_map_iff in X. destruct X as (w' & E & _).
      injection E as <- <-. auto.
Qed.
(** Everything is chosen from the rank, after -pick-reach. *)
Lemma candidates_sub : exists cs r, back_reach opt I p idx cs0 = Some cs /\ pick_action_candidates opt nice f I p idx pk = Some r /\ r <> [] /\ incl r cs /\ incl cs cs0.
Proof.
  destruct back_reach_sub as (cs & B1 & B2 & B3). exists cs. unfold pick_action_candidates. rewrite B1.
  set (cs1 := match nicePolicy opt with BegNice => nicest nice I cs | _ => cs end).
  assert (C1 : incl cs1 cs /\ cs1 <> []).
  { unfold cs1. destruct (nicest_sub nice I cs) as (A & B). destruct (nicePolicy opt); split; auto; apply incl_refl. }
  destruct C1 as (C1 & C2). destruct (bias_sub cs1 C2 (incl_tran C1 B3)) as (b & l & -> & L1 & L2).
  destruct (best_sub b l L1) as (r & -> & R1 & R2). destruct (nicest_sub nice I r) as (A & B).
  exists (match nicePolicy opt with EndNice => nicest nice I r | _ => r end). split; auto. split; auto.
  assert (R3 : incl r cs) by (intros x X; apply C1, L2, R2; auto).
  destruct (nicePolicy opt); split; auto; split; auto. apply (incl_tran A R3).
Qed.
End Candidates.

(** ** The rank *)
Lemma mrv_inner_spec : forall sizes i mrv, (i = 0 -> nth 0 sizes true = true) -> (mrv = 0 \/ i <= mrv) ->
  let m := mrv_inner sizes i mrv in
  (m = mrv \/ (0 < m /\ i <= m /\ nth (m - i) sizes true = false)) /\
  (forall j, nth j sizes true = false -> 0 < m /\ m <= i + j) /\ (0 < mrv -> 0 < m /\ m <= mrv).
Proof.
  induction sizes as [|e sizes IH]; intros i mrv H0 H; cbn [mrv_inner].
  - split; auto. split; [|lia]. intros j J. destruct j; discriminate.
  - destruct ((0 <? mrv) && (mrv <=? i)) eqn:C.
    + apply andb_prop in C. destruct C as (C1 & C2). apply Nat.ltb_lt in C1. apply Nat.leb_le in C2. split; auto. split; [|lia]. intros j _. lia.
    + assert (C' : mrv = 0 \/ S i <= mrv). { apply andb_false_iff in C. destruct C as [C|C]; [apply Nat.ltb_ge in C; lia|apply Nat.leb_gt in C; lia]. }
      destruct e.
      * destruct (IH (S i) mrv ltac:(discriminate) C') as (A & B & D). split; [|split; auto].
        -- destruct A as [A|(A1 & A2 & A3)]; auto. right. split; auto. split; [lia|]. replace (mrv_inner sizes (S i) mrv - i) with (S (mrv_inner sizes (S i) mrv - S i)) by lia. auto.
        -- intros [|j] J; [discriminate|]. destruct (B j J). split; auto. lia.
      * destruct i as [|i]; [discriminate (H0 eq_refl)|]. assert (E : mrv_inner sizes (S (S i)) (S i) = S i).
        { destruct sizes; cbn [mrv_inner]; auto. replace (0 <? S i) with true by reflexivity. replace (S i <=? S (S i)) with true by (symmetry; apply Nat.leb_le; lia). auto. }
        rewrite E. split; [right; split; [lia|]; split; [lia|]; rewrite Nat.sub_diag; auto|]. split; intros; lia.
Qed.
Lemma rank_empty_nth : forall p j, nth j (rank_empty p) true = is_empty (part_rank p j).
Proof.
  intros p j. unfold rank_empty, part_rank. revert j. induction (ranks (projT2 p)) as [|d l IH]; intros [|j]; cbn; auto.
Qed.
Definition full (p : part) : Prop := p_no_partial p = false.
Lemma mrv_fold : forall ps mrv, (forall p, In p ps -> full p -> part_rank p 0 = []) ->
  let m := fold_left (fun mrv p => if p_no_partial p then mrv else mrv_inner (rank_empty p) 0 mrv) ps mrv in
  (m = mrv \/ (0 < m /\ exists p, In p ps /\ full p /\ part_rank p m <> [])) /\
  (forall p j, In p ps -> full p -> part_rank p j <> [] -> 0 < m /\ m <= j) /\ (0 < mrv -> 0 < m /\ m <= mrv).
Proof.
  induction ps as [|p ps IH]; intros mrv H; cbn [fold_left].
  - split; auto. split; [|lia]. intros p j [].
  - assert (H' : forall q, In q ps -> full q -> part_rank q 0 = []) by (intros; apply H; cbn; auto). destruct (p_no_partial p) eqn:E.
    + destruct (IH mrv H') as (A & B & C). split; [|split; auto].
      * destruct A as [A|(A1 & q & A2 & A3)]; auto. right. split; auto. exists q. cbn. auto.
      * intros q j [<-|Q] F; [unfold full in F; congruence|]. apply B; auto.
    + destruct (mrv_inner_spec (rank_empty p) 0 mrv) as (A & B & C); [|lia|].
      { intros _. rewrite rank_empty_nth. rewrite (H p (or_introl eq_refl) E). auto. }
      set (m1 := mrv_inner (rank_empty p) 0 mrv) in *. destruct (IH m1 H') as (A' & B' & C'). split; [|split].
      * destruct A' as [A'|(A1 & q & A2 & A3)]; [|right; split; auto; exists q; cbn; auto]. rewrite A'. destruct A as [A|(A1 & A2 & A3)]; auto. right. split; auto. exists p.
        split; [cbn; auto|]. split; auto. rewrite rank_empty_nth in A3. rewrite Nat.sub_0_r in A3. apply not_empty; auto.
      * intros q j [<-|Q] F N; [|apply B' with q; auto]. destruct (B j) as (B1 & B2); [rewrite rank_empty_nth; apply not_empty; auto|]. destruct (C' B1). split; auto. lia.
      * intros P. destruct (C P) as (C1 & C2). destruct (C' C1). split; auto. lia.
Qed.

Section Node.
Variable opt : pick_opt.
Variable nice : inst -> nat -> nat.
Variable f : family.
Hypothesis MO : method opt <> FullyRandomPick.
Lemma mrv_candidates_spec : forall mrv pk ps acc, (forall p, In p ps -> forall s : St (projT1 p), In s (univ (projT1 p))) ->
  exists cs, mrv_candidates opt nice f mrv pk ps acc = Good cs /\
    (cs = acc \/ exists p r, In p ps /\ full p /\ part_rank p mrv <> [] /\ pick_action_candidates opt nice f (projT1 p) (projT2 p) mrv pk = Some cs /\ cs <> [] /\
       back_reach opt (projT1 p) (projT2 p) mrv (part_rank p mrv) = Some r /\ incl cs r /\ incl r (part_rank p mrv)) /\
    (acc <> [] \/ (exists p, In p ps /\ full p /\ part_rank p mrv <> []) -> cs <> []).
Proof.
  intros mrv pk ps. induction ps as [|p ps IH]; intros acc ALL; cbn [mrv_candidates].
  - exists acc. split; auto. split; auto. intros [H|(p & [] & _)]; auto.
  - assert (ALL' : forall q, In q ps -> forall s : St (projT1 q), In s (univ (projT1 q))) by (intros; apply ALL; cbn; auto).
    destruct (p_no_partial p || (length (ranks (projT2 p)) <=? mrv) || is_empty (part_rank p mrv)) eqn:E.
    + destruct (IH acc ALL') as (cs & A & B & C). exists cs. split; auto. split.
      * destruct B as [B|(q & r & Q & R)]; auto. right. exists q, r. split; [cbn; auto|]. auto.
      * intros [H|(q & [<-|Q] & F & N)]; [apply C; auto| |apply C; right; exists q; auto]. exfalso. apply orb_prop in E. destruct E as [E|E].
        -- apply orb_prop in E. destruct E as [E|E]; [unfold full in F; congruence|]. apply Nat.leb_le in E. apply N. unfold part_rank. rewrite nth_overflow; auto.
        -- apply not_empty in N. congruence.
    + apply orb_false_iff in E. destruct E as (E & E3). apply orb_false_iff in E. destruct E as (E1 & _). apply not_empty in E3.
      destruct (candidates_sub opt nice f (projT1 p) (projT2 p) mrv pk (ALL p (or_introl eq_refl)) E3 MO) as (r & tmp & R1 & R2 & R3 & R4 & R5). rewrite R2.
      destruct tmp as [|x tmp]; [congruence|]. set (acc' := if is_empty acc || _ then _ else _).
      assert (N : acc' <> []). { unfold acc'. destruct (is_empty acc) eqn:EA; cbn [orb]; [discriminate|]. destruct (length _ <? _); [discriminate|]. apply not_empty; auto. }
      destruct (IH acc' ALL') as (cs & A & B & C). exists cs. split; auto. split; [|intros _; apply C; auto].
      destruct B as [B|(q & r' & Q & R)]; [|right; exists q, r'; split; [cbn; auto|]; auto]. subst cs. unfold acc'. destruct (is_empty acc || _); auto. right. exists p, r.
      split; [cbn; auto|]. auto 10.
Qed.
Lemma any_in : forall ps, any_candidates ps <> [] -> exists p, In p ps /\ p_cands p <> [] /\ any_candidates ps = p_cands p.
Proof.
  induction ps as [|p ps IH]; cbn; [congruence|]. destruct (is_empty (p_cands p)) eqn:E.
  - intros H. destruct (IH H) as (q & Q1 & Q2). exists q. auto.
  - intros _. exists p. apply not_empty in E. auto.
Qed.
End Node.
Lemma any_some : forall ps, (exists p, In p ps /\ p_cands p <> []) -> any_candidates ps <> [].
Proof.
  induction ps as [|p ps IH]; intros (q & Q & N); [destruct Q|]. cbn. destruct (is_empty (p_cands p)) eqn:E; [|apply not_empty; auto].
  destruct Q as [<-|Q]; [apply not_empty in N; congruence|]. apply IH. eauto.
Qed.
Lemma first_of_each_sub : forall net cs seen, incl (first_of_each net seen cs) cs.
Proof.
  intros net. induction cs as [|a cs IH]; intros seen x X; cbn in X; auto. destruct (smem _ seen); [right; eapply IH; eauto|]. destruct X as [<-|X]; [left; auto|right; eapply IH; eauto].
Qed.
Lemma first_of_each_ne : forall net cs, cs <> [] -> first_of_each net [] cs <> [].
Proof. intros net [|a cs] H; [congruence|]. cbn. discriminate. Qed.
Lemma chosen_in : forall (b : bool) draw (cs : list nat), cs <> [] -> In (if b then nth (draw mod length cs) cs 0 else hd 0 cs) cs.
Proof.
  intros b draw cs H. destruct b; [|destruct cs; [congruence|left; auto]]. apply nth_In. apply Nat.mod_upper_bound. destruct cs; [congruence|discriminate].
Qed.

(** ** The choice *)
Lemma rank0_empty : forall p, ranked p -> full p -> part_rank p 0 = [].
Proof.
  intros p R F. pose proof (rd_ranks p R F) as K. destruct (part_rank p 0) as [|a l] eqn:E; auto. exfalso.
  assert (X : In a (part_rank p 0)) by (rewrite E; left; auto). apply (rk_cands _ _ _ _ _ K) in X. destruct X as (A & s & _ & C & G).
  unfold enabled_count in C. assert (Y : In a (filter (fun a => sources _ (dec (projT1 p)) (univ (projT1 p)) (axn (projT1 p) a) s) (p_cands p))) by (apply filter_In; auto).
  destruct (filter _ _); [destruct Y|discriminate].
Qed.
Lemma pick_cases : forall opt nice f net draw prob nd, (forall p, In p (parts nd) -> ranked p) -> method opt <> FullyRandomPick ->
  (exists p, In p (parts nd) /\ p_cands p <> []) ->
  exists a, PickActionMRV opt nice f net draw prob nd = Picked a /\
    ((exists p r, In p (parts nd) /\ full p /\ 0 < mrv_rank (parts nd) /\ In a r /\
        back_reach opt (projT1 p) (projT2 p) (mrv_rank (parts nd)) (part_rank p (mrv_rank (parts nd))) = Some r /\ incl r (part_rank p (mrv_rank (parts nd))) /\
        forall q j, In q (parts nd) -> full q -> part_rank q j <> [] -> mrv_rank (parts nd) <= j) \/
     ((forall p j, In p (parts nd) -> full p -> part_rank p j = []) /\ exists p, In p (parts nd) /\ In a (p_cands p))).
Proof.
  intros opt nice f net draw prob nd RK MO EX.
  destruct (mrv_fold (parts nd) 0) as (A & B & _); [intros p P F; apply rank0_empty; auto|]. fold (mrv_rank (parts nd)) in A, B. set (mrv := mrv_rank (parts nd)) in *.
  destruct (mrv_candidates_spec opt nice f MO mrv (picks nd) (parts nd) []) as (cs & C1 & C2 & C3); [intros p P; apply (rd_all p (RK p P))|].
  unfold PickActionMRV. fold mrv. rewrite C1.
  assert (X : forall a, (exists b, a = if b : bool then nth (draw mod length (if prob then first_of_each net [] (if is_empty cs then fold_right sadd [] (any_candidates (parts nd)) else cs) else (if is_empty cs then fold_right sadd [] (any_candidates (parts nd)) else cs)))
      (if prob then first_of_each net [] (if is_empty cs then fold_right sadd [] (any_candidates (parts nd)) else cs) else (if is_empty cs then fold_right sadd [] (any_candidates (parts nd)) else cs)) 0
      else hd 0 (if prob then first_of_each net [] (if is_empty cs then fold_right sadd [] (any_candidates (parts nd)) else cs) else (if is_empty cs then fold_right sadd [] (any_candidates (parts nd)) else cs))) ->
    In a (if is_empty cs then fold_right sadd [] (any_candidates (parts nd)) else cs) /\ (if is_empty cs then fold_right sadd [] (any_candidates (parts nd)) else cs) <> []).
  { intros a (b & ->). set (l := if is_empty cs then _ else cs). assert (L : l <> []).
    { unfold l. destruct (is_empty cs) eqn:E; [apply saddl_nonnil, any_some; auto|apply not_empty; auto]. }
    split; auto. destruct prob; [apply (first_of_each_sub net l []), chosen_in, first_of_each_ne; auto|apply chosen_in; auto]. }
  destruct (method opt) eqn:M; try congruence;
  (match goal with |- context [Picked ?v] => destruct (X v) as (X1 & X2); [eexists; reflexivity|]; exists v end;
   (split; [apply not_empty in X2; rewrite X2; reflexivity|]);
   set (a := if randomize_pick opt && _ then _ else _) in *; clearbody a;
   (destruct (is_empty cs) eqn:E;
    [ right; apply is_empty_nil in E; subst cs; (assert (Z : forall p j, In p (parts nd) -> full p -> part_rank p j = []); [
        intros p j P F; destruct (part_rank p j) as [|b l] eqn:Q; auto; exfalso;
        destruct (B p j P F) as (B1 & _); [congruence|]; destruct A as [A|(_ & q & A1 & A2 & A3)]; [lia|]; apply C3; [right; exists q; auto|auto]|]);
      split; auto; rewrite in_saddl in X1; destruct (any_in (parts nd)) as (p & P1 & P2 & P3); [intros Q; rewrite Q in X1; destruct X1|]; exists p; split; auto; rewrite <- P3; auto
    | left; apply not_empty in E; destruct C2 as [C2|(p & r & P1 & P2 & P3 & P4 & P5 & P6 & P7 & P8)]; [congruence|];
      exists p, r; split; auto; split; auto; split; [apply (B p mrv P1 P2 P3)|]; split; [apply P7; auto|]; split; auto; split; auto;
      intros q j Q F N; apply (B q j Q F N) ])).
Qed.
