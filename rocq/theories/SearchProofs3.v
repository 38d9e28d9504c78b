(** The rounds of [revise_actions]: all instances end up with the same actions. *)
From Coq Require Import List Arith Bool Lia Permutation.
From Verif Require Import FinLib ReachModel ReachSpec ReachProofs StabModel StabProofs RankModel RankSpec RankProofs
  ConflictModel ConflictSpec ConflictProofs SearchModel SearchSpec SearchProofs SearchProofs2.
Import ListNotations.

Lemma nth_error_upd : forall A (l : list A) i j x, nth_error (upd l i x) j =
  if Nat.eq_dec i j then (if lt_dec i (length l) then Some x else None) else nth_error l j.
Proof.
  intros A. induction l as [|y l IH]; intros [|i] [|j] x; simpl; auto.
  - destruct (Nat.eq_dec i j); auto.
  - rewrite IH. destruct (Nat.eq_dec i j), (lt_dec i (length l)); try destruct (lt_dec (S i) (S (length l))); auto; lia.
Qed.

Lemma upd_same_error : forall A (l : list A) i x, i < length l -> nth_error (upd l i x) i = Some x.
Proof. intros. rewrite nth_error_upd. destruct (Nat.eq_dec i i), (lt_dec i (length l)); auto; lia. Qed.
Lemma upd_other_error : forall A (l : list A) i j x, i <> j -> nth_error (upd l i x) j = nth_error l j.
Proof. intros. rewrite nth_error_upd. destruct (Nat.eq_dec i j); auto; lia. Qed.

Lemma nth_map_nil : forall (g : list nat -> list nat) (l : list (list nat)) j, j < length l ->
  nth j (map g l) [] = g (nth j l []).
Proof. intros g l j H. rewrite (nth_indep _ [] (g [])) by (rewrite map_length; auto). apply map_nth. Qed.

Section Rounds.
Variable place : fset -> list fset -> nat.
Variable clash : nat -> nat -> bool.

Notation adds_at r i := (nth i (r_adds r) []).
Notation dels_at r i := (nth i (r_dels r) []).
(** Whether instance [i] is revised when its turn comes. *)
Definition waits (r : round) (i : nat) : bool :=
  r_force r || negb (is_empty (adds_at r i)) || negb (is_empty (dels_at r i)).

(** The state after the revision of instance [i]. *)
Definition after (i : nat) (r : round) (p' : part) (a d rejs : list nat) : round :=
  let common := if i =? 0 then d else sand (r_common r) d in
  let ps := upd (r_parts r) i p' in
  let adds := upd (r_adds r) i a in
  let dels := upd (r_dels r) i [] in
  if negb (is_empty a) || negb (is_empty rejs)
  then mkRound ps (map (fun x => sor x a) adds) (map (fun x => sor x rejs) dels) true false common
  else mkRound ps adds dels (r_keep r) (r_force r) common.

Lemma sweep_cases : forall (P : nat -> family -> round -> Prop),
  (forall i f r, P i f r -> waits r i = false -> P (S i) f r) ->
  (forall i f r p f' p' a d rejs, P i f r -> nth_error (r_parts r) i = Some p -> waits r i = true ->
     r_keep r && is_empty (r_common r) = false ->
     alone_part place clash f p (adds_at r i) (dels_at r i) = (f', Good (p', a, d, rejs)) ->
     P (S i) f' (after i r p' a d rejs)) ->
  forall n i f r, P i f r ->
  match sweep place clash n i f r with
  | (f', Good r') => exists i', P i' f' r' /\ i' <= i + n /\ (i' = i + n \/ r_keep r' && is_empty (r_common r') = true)
  | (f', Bad) => exists i1 f1 r1 p, P i1 f1 r1 /\ nth_error (r_parts r1) i1 = Some p /\ waits r1 i1 = true /\
      alone_part place clash f1 p (adds_at r1 i1) (dels_at r1 i1) = (f', Bad)
  | (f', Stuck) => exists i1 f1 r1, P i1 f1 r1 /\ (f' = f1 \/ exists p, nth_error (r_parts r1) i1 = Some p /\
      alone_part place clash f1 p (adds_at r1 i1) (dels_at r1 i1) = (f', Stuck))
  end.
Proof.
  intros P Hskip Hstep. induction n as [|n IH]; intros i f r HP; cbn [sweep].
  - exists i. rewrite Nat.add_0_r. auto.
  - destruct (r_keep r && is_empty (r_common r)) eqn:E1.
    { exists i. split; auto. split; [lia|auto]. }
    destruct (negb (r_force r) && is_empty (adds_at r i) && is_empty (dels_at r i)) eqn:E2.
    + assert (Hw : waits r i = false).
      { unfold waits. rewrite !andb_true_iff, negb_true_iff in E2. destruct E2 as ((-> & ->) & ->). auto. }
      specialize (IH (S i) f r (Hskip i f r HP Hw)). rewrite Nat.add_succ_comm in IH. exact IH.
    + assert (Hw : waits r i = true).
      { unfold waits. destruct (r_force r), (is_empty (adds_at r i)), (is_empty (dels_at r i)); auto. }
      destruct (nth_error (r_parts r) i) as [p|] eqn:E3; [|exists i, f, r; auto].
      destruct (alone_part place clash f p (adds_at r i) (dels_at r i)) as (f', [(((p', a), d), rejs)| |]) eqn:E4.
      * specialize (IH (S i) f' (after i r p' a d rejs) (Hstep i f r p f' p' a d rejs HP E3 Hw E1 E4)).
        rewrite Nat.add_succ_comm in IH. unfold after in IH. cbv zeta.
        destruct (negb (is_empty a) || negb (is_empty rejs)); exact IH.
      * exists i, f, r, p. auto.
      * exists i, f, r. split; auto. right. exists p. auto.
Qed.

Lemma after_length : forall i r p' a d rejs,
  length (r_parts (after i r p' a d rejs)) = length (r_parts r) /\
  length (r_adds (after i r p' a d rejs)) = length (r_adds r) /\
  length (r_dels (after i r p' a d rejs)) = length (r_dels r).
Proof.
  intros. unfold after. destruct (negb (is_empty a) || _); cbn [r_parts r_adds r_dels];
    rewrite ?map_length, !upd_length; auto.
Qed.

Lemma after_parts : forall i r p' a d rejs, r_parts (after i r p' a d rejs) = upd (r_parts r) i p'.
Proof. intros. unfold after. destruct (negb (is_empty a) || _); auto. Qed.
Lemma after_common : forall i r p' a d rejs,
  r_common (after i r p' a d rejs) = if i =? 0 then d else sand (r_common r) d.
Proof. intros. unfold after. destruct (negb (is_empty a) || _); auto. Qed.

Lemma is_empty_nil : forall l : list nat, is_empty l = true -> l = [].
Proof. intros [|]; [auto|discriminate]. Qed.

Lemma after_adds : forall i r p' a d rejs j x, i < length (r_adds r) -> j < length (r_adds r) ->
  (In x (adds_at (after i r p' a d rejs) j) <->
   In x a \/ (j <> i /\ In x (adds_at r j))).
Proof.
  intros i r p' a d rejs j x Hi Hj. unfold after.
  destruct (negb (is_empty a) || negb (is_empty rejs)) eqn:E; cbn [r_adds].
  - rewrite nth_map_nil by (rewrite upd_length; auto). rewrite in_sor.
    destruct (Nat.eq_dec j i) as [->|Hn].
    + rewrite nth_upd_same by auto. tauto.
    + rewrite nth_upd_other by auto. tauto.
  - apply orb_false_iff in E. destruct E as (E & _). apply negb_false_iff, is_empty_nil in E. subst a.
    destruct (Nat.eq_dec j i) as [->|Hn].
    + rewrite nth_upd_same by auto. simpl. tauto.
    + rewrite nth_upd_other by auto. simpl. tauto.
Qed.

Lemma after_dels : forall i r p' a d rejs j x, i < length (r_dels r) -> j < length (r_dels r) ->
  (In x (dels_at (after i r p' a d rejs) j) <->
   In x rejs \/ (j <> i /\ In x (dels_at r j))).
Proof.
  intros i r p' a d rejs j x Hi Hj. unfold after.
  destruct (negb (is_empty a) || negb (is_empty rejs)) eqn:E; cbn [r_dels].
  - rewrite nth_map_nil by (rewrite upd_length; auto). rewrite in_sor.
    destruct (Nat.eq_dec j i) as [->|Hn].
    + rewrite nth_upd_same by auto. simpl. tauto.
    + rewrite nth_upd_other by auto. tauto.
  - apply orb_false_iff in E. destruct E as (_ & E). apply negb_false_iff, is_empty_nil in E. subst rejs.
    destruct (Nat.eq_dec j i) as [->|Hn].
    + rewrite nth_upd_same by auto. simpl. tauto.
    + rewrite nth_upd_other by auto. simpl. tauto.
Qed.

(** If nothing new was found, the others keep what they had. *)
Lemma after_keep : forall i r p' a d rejs,
  (r_keep (after i r p' a d rejs) = true <-> a <> [] \/ rejs <> [] \/ r_keep r = true).
Proof.
  intros. unfold after.
  destruct a as [|x a], rejs as [|y rejs]; cbn [is_empty negb orb r_keep]; split; intros H; auto.
  - destruct H as [H|[H|H]]; congruence.
  - right. left. discriminate.
  - left. discriminate.
  - left. discriminate.
Qed.
Lemma after_force : forall i r p' a d rejs,
  r_force (after i r p' a d rejs) = r_force r && is_empty a && is_empty rejs.
Proof.
  intros. unfold after. destruct a as [|x a], rejs as [|y rejs], (r_force r); auto.
Qed.

(** * One action set for all instances *)
Variable insts : list inst.
Hypothesis Hproper : forall I, In I insts -> proper I.
(** The actions that may be used. *)
Variable allowed : nat -> Prop.

Definition shaped (p : part) : Prop := shape (projT1 p) (projT2 p).

(** The state during a pass: [i] instances have been visited; [U] are the actions
    that every instance has or is about to get. *)
Record invar (U0 : list nat) (i : nat) (r : round) (U : list nat) : Prop := mkInvar {
  iv_insts : map (@projT1 _ _) (r_parts r) = insts;
  iv_adds : length (r_adds r) = length insts;
  iv_dels : length (r_dels r) = length insts;
  iv_shape : Forall shaped (r_parts r);
  iv_same : forall j p, nth_error (r_parts r) j = Some p ->
    forall x, In x U <-> In x (p_actions p) \/ In x (adds_at r j);
  iv_from : incl U0 U;
  iv_allowed : forall x, In x U -> allowed x;
  iv_cands : forall j p, nth_error (r_parts r) j = Some p ->
    forall x, In x (p_cands p) -> allowed x \/ In x (dels_at r j);
  iv_done : r_keep r = false -> forall j, j < i -> adds_at r j = [] /\ dels_at r j = []
}.

Lemma alone_part_revised : forall f p adds dels f' p' a d rejs, In (projT1 p) insts -> shaped p ->
  alone_part place clash f p adds dels = (f', Good (p', a, d, rejs)) ->
  f' = f /\ exists q, p' = existT _ (projT1 p) q /\ revised (projT1 p) (projT2 p) adds dels q a d rejs.
Proof.
  intros f p adds dels f' p' a d rejs Hin Hs. unfold alone_part.
  destruct (alone place clash (projT1 p) f (projT2 p) adds dels) as (f1, [(((q, a1), d1), r1)| |]) eqn:E; try discriminate.
  intros X. injection X as <- <- <- <- <-.
  apply (alone_revised place clash (projT1 p) (Hproper _ Hin)) in E; auto. destruct E as (-> & E). split; auto.
  exists q. auto.
Qed.

Lemma part_inst : forall r j p, map (@projT1 _ _) (r_parts r) = insts -> nth_error (r_parts r) j = Some p ->
  In (projT1 p) insts /\ j < length insts.
Proof.
  intros r j p H1 H2. rewrite <- H1. split.
  - apply in_map. apply nth_error_In in H2. auto.
  - rewrite map_length. apply nth_error_Some. unfold part in *. rewrite H2. discriminate.
Qed.

Lemma map_upd : forall A B (g : A -> B) (l : list A) i x y, nth_error l i = Some y -> g x = g y ->
  map g (upd l i x) = map g l.
Proof.
  intros A B g. induction l as [|z l IH]; intros [|i] x y H E; simpl in *; try discriminate; auto.
  - injection H as ->. rewrite E. auto.
  - f_equal. apply (IH i x y); auto.
Qed.

Lemma invar_skip : forall U0 i r U, invar U0 i r U -> waits r i = false -> invar U0 (S i) r U.
Proof.
  intros U0 i r U [H1 H2 H3 H4 H5 H6 H7 H8 H9] Hw. split; auto. intros Hk j Hj.
  destruct (Nat.eq_dec j i) as [->|]; [|apply H9; auto; lia].
  unfold waits in Hw. rewrite !orb_false_iff, !negb_false_iff in Hw. destruct Hw as ((_ & Ha) & Hb).
  apply is_empty_nil in Ha. apply is_empty_nil in Hb. auto.
Qed.

Lemma invar_step : forall U0 i f r U p f' p' a d rejs, invar U0 i r U -> nth_error (r_parts r) i = Some p ->
  alone_part place clash f p (adds_at r i) (dels_at r i) = (f', Good (p', a, d, rejs)) ->
  f' = f /\ invar U0 (S i) (after i r p' a d rejs) (sor U a) /\
  (exists q, p' = existT _ (projT1 p) q /\
     revised (projT1 p) (projT2 p) (adds_at r i) (dels_at r i) q a d rejs).
Proof.
  intros U0 i f r U p f' p' a d rejs [H1 H2 H3 H4 H5 H6 H7 H8 H9] Hp E.
  destruct (part_inst r i p H1 Hp) as (Hin & Hi).
  assert (Hsp : shaped p) by (rewrite Forall_forall in H4; apply H4; apply nth_error_In in Hp; auto).
  destruct (alone_part_revised f p _ _ f' p' a d rejs Hin Hsp E) as (-> & q & -> & R). split; auto.
  split; [|exists q; auto]. destruct R as [R1 R2 R3 R4 R5 R6 R7 R8].
  assert (Hlp : i < length (r_parts r)) by (rewrite <- H1, map_length in Hi; auto).
  destruct (after_length i r (existT _ (projT1 p) q) a d rejs) as (L1 & L2 & L3).
  assert (Hal : forall x, In x a -> allowed x).
  { intros x Hx. apply R4 in Hx. apply R3 in Hx. destruct Hx as (Hx & _ & Hn).
    destruct (H8 i p Hp x Hx); auto. contradiction. }
  split.
  - rewrite after_parts. rewrite (map_upd _ _ _ _ _ _ p); auto.
  - rewrite L2. auto.
  - rewrite L3. auto.
  - rewrite after_parts. apply Forall_upd; auto.
  - intros j pj. rewrite after_parts. intros Hj x. rewrite in_sor.
    destruct (Nat.eq_dec i j) as [<-|Hn].
    + rewrite upd_same_error in Hj by auto. injection Hj as <-. unfold p_actions. cbn [projT1 projT2].
      rewrite (H5 i p Hp x), after_adds by (rewrite ?H2; auto). rewrite R2. unfold p_actions. tauto.
    + rewrite upd_other_error in Hj by auto. destruct (part_inst r j pj H1 Hj) as (_ & Hjl).
      rewrite (H5 j pj Hj x), after_adds by (rewrite ?H2; auto). assert (j <> i) by auto. tauto.
  - intros x Hx. apply in_sor. left. auto.
  - intros x Hx. apply in_sor in Hx. destruct Hx; auto.
  - intros j pj. rewrite after_parts. intros Hj x Hx.
    destruct (Nat.eq_dec i j) as [<-|Hn].
    + rewrite upd_same_error in Hj by auto. injection Hj as <-. unfold p_cands in Hx. cbn [projT2] in Hx.
      apply R3 in Hx. destruct Hx as (Hx & _ & Hd). destruct (H8 i p Hp x Hx); auto. contradiction.
    + rewrite upd_other_error in Hj by auto. destruct (part_inst r j pj H1 Hj) as (_ & Hjl).
      destruct (H8 j pj Hj x Hx) as [|Hd]; auto. right. apply after_dels; rewrite ?H3; auto.
  - intros Hk. assert (Hk' : ~ (a <> [] \/ rejs <> [] \/ r_keep r = true)) by (rewrite <- after_keep; intros X; rewrite X in Hk; discriminate).
    assert (a = []) by (destruct a; auto; exfalso; apply Hk'; left; discriminate).
    assert (rejs = []) by (destruct rejs; auto; exfalso; apply Hk'; right; left; discriminate).
    assert (r_keep r = false) by (destruct (r_keep r); auto; exfalso; apply Hk'; auto).
    subst a rejs. unfold after. cbn [is_empty negb orb r_adds r_dels]. intros j Hj.
    destruct (Nat.eq_dec j i) as [->|Hn].
    + rewrite !nth_upd_same by (rewrite ?H2, ?H3; auto). auto.
    + rewrite !nth_upd_other by auto. apply H9; auto. lia.
Qed.

Lemma rounds_same : forall U0 fuel f ps adds dels force U f' ps',
  invar U0 0 (mkRound ps adds dels false force []) U ->
  rounds_loop place clash fuel f ps adds dels force = (f', Good ps') ->
  map (@projT1 _ _) ps' = insts /\ Forall shaped ps' /\
  exists U', incl U0 U' /\ (forall x, In x U' -> allowed x) /\
    (forall p, In p ps' -> (forall x, In x U' <-> In x (p_actions p)) /\ (forall x, In x (p_cands p) -> allowed x)).
Proof.
  intros U0. induction fuel as [|fuel IH]; intros f ps adds dels force U f' ps' HI; cbn [rounds_loop]; [discriminate|].
  pose proof (sweep_cases (fun i _ r => exists U, invar U0 i r U)) as HS.
  specialize (HS (fun i f r '(ex_intro _ U H) Hw => ex_intro _ U (invar_skip U0 i r U H Hw))).
  assert (Hstep : forall i f r p f' p' a d rejs, (exists U, invar U0 i r U) -> nth_error (r_parts r) i = Some p ->
     waits r i = true -> r_keep r && is_empty (r_common r) = false ->
     alone_part place clash f p (adds_at r i) (dels_at r i) = (f', Good (p', a, d, rejs)) ->
     exists U, invar U0 (S i) (after i r p' a d rejs) U).
  { intros i f1 r p f2 p' a d rejs (U1 & HU) Hp _ _ E. destruct (invar_step U0 i f1 r U1 p f2 p' a d rejs HU Hp E) as (_ & X & _).
    eauto. }
  specialize (HS Hstep (length ps) 0 f _ (ex_intro _ U HI)).
  destruct (sweep place clash (length ps) 0 f _) as (f1, [r1| |]); try discriminate.
  destruct HS as (i' & (U1 & [H1 H2 H3 H4 H5 H6 H7 H8 H9]) & Hle & Hend).
  destruct (r_keep r1) eqn:Ek.
  - apply (IH _ _ _ _ _ U1). split; cbn [r_parts r_adds r_dels r_keep]; auto.
    + rewrite map_length. auto.
    + intros j p Hj x Hx. destruct (part_inst r1 j p H1 Hj) as (_ & Hjl).
      destruct (H8 j p Hj x Hx); auto. right. rewrite nth_map_nil by (rewrite H3; auto). apply in_sor. auto.
    + intros _ j Hj. lia.
  - intros E. injection E as <- <-. split; auto. split; auto. exists U1. split; auto. split; auto.
    destruct Hend as [Hend|Hend]; [|discriminate]. cbn [plus] in Hend.
    intros p Hp. apply In_nth_error in Hp. destruct Hp as (j & Hj).
    assert (Hlt : j < i').
    { destruct (part_inst r1 j p H1 Hj) as (_ & Hjl). rewrite Hend. destruct HI as [G1 _ _ _ _ _ _ _ _].
      cbn [r_parts] in G1. rewrite <- G1, map_length in Hjl. auto. }
    destruct (H9 eq_refl j Hlt) as (A1 & A2). split.
    + intros x. rewrite (H5 j p Hj x), A1. simpl. tauto.
    + intros x Hx. destruct (H8 j p Hj x Hx) as [|X]; auto. rewrite A2 in X. destruct X.
Qed.

Lemma nth_const : forall A (ps : list A) (v : list nat) j, j < length ps -> nth j (map (fun _ => v) ps) [] = v.
Proof. intros A. induction ps as [|p ps IH]; intros v j H; simpl in *; [lia|]. destruct j; auto. apply IH. lia. Qed.

(** A level of the search. *)
Record level_ok (ps : list part) (U : list nat) : Prop := mkLevel {
  lv_insts : map (@projT1 _ _) ps = insts;
  lv_shape : Forall shaped ps;
  lv_same : forall p, In p ps -> forall x, In x U <-> In x (p_actions p);
  lv_allowed : forall x, In x U -> allowed x
}.

Lemma revise_same : forall rounds f ps U adds dels f' ps',
  level_ok ps U -> (forall x, In x adds -> allowed x) ->
  (forall p, In p ps -> forall x, In x (p_cands p) -> allowed x \/ In x dels) ->
  revise place clash rounds f ps adds dels = (f', Good ps') ->
  exists U', level_ok ps' U' /\ incl U U' /\ incl adds U' /\
    (forall p, In p ps' -> forall x, In x (p_cands p) -> allowed x).
Proof.
  intros rounds f ps U adds dels f' ps' [H1 H2 H3 H4] Ha Hc. unfold revise.
  destruct (rounds_loop _ _ _ _ _ _ _ _) as (f1, [ps1| |]) eqn:E; try discriminate.
  destruct (same_sizes ps1); [|discriminate]. intros X. injection X as <- <-.
  assert (HI : invar (U ++ adds) 0 (mkRound ps (map (fun _ => adds) ps) (map (fun _ => dels) ps) false
                                     (is_empty adds && is_empty dels) []) (U ++ adds)).
  { split; cbn [r_parts r_adds r_dels r_keep]; auto.
    - rewrite map_length, <- H1, map_length. auto.
    - rewrite map_length, <- H1, map_length. auto.
    - intros j p Hj x. rewrite nth_const by (apply nth_error_Some; congruence).
      rewrite in_app_iff, (H3 p) by (apply nth_error_In in Hj; auto). tauto.
    - apply incl_refl.
    - intros x Hx. apply in_app_or in Hx. destruct Hx; auto.
    - intros j p Hj x Hx. rewrite nth_const by (apply nth_error_Some; congruence). apply nth_error_In in Hj. eauto.
    - intros _ j Hj. lia. }
  destruct (rounds_same _ _ _ _ _ _ _ _ _ _ HI E) as (R1 & R2 & U' & R3 & R4 & R5).
  exists U'. split; [|split; [|split]].
  - split; auto. intros p Hp. apply R5. auto.
  - intros x Hx. apply R3. apply in_or_app. auto.
  - intros x Hx. apply R3. apply in_or_app. auto.
  - intros p Hp. apply R5. auto.
Qed.

(** The sizes compared by a Claim are equal. *)
Lemma same_sizes_ok : forall ps U, level_ok ps U -> same_sizes ps = true.
Proof.
  intros ps U [_ H2 H3 _]. induction ps as [|p [|q ps] IH]; auto.
  change (same_sizes (p :: q :: ps)) with ((length (p_actions p) =? length (p_actions q)) && same_sizes (q :: ps)).
  inversion H2; subst. rewrite IH; auto.
  - rewrite andb_true_r. apply Nat.eqb_eq. apply same_length.
    + apply H1.
    + inversion H4; subst. apply H5.
    + intros x. rewrite <- (H3 p), <- (H3 q) by (simpl; auto). tauto.
  - intros p0 Hp0. apply H3. right. auto.
Qed.
End Rounds.
