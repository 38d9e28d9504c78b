(** Proofs about the ranking of deadlocks. *)
From Coq Require Import List Arith Bool Lia Sorted Permutation.
From Verif Require Import FinLib ReachModel ReachSpec ReachProofs RankModel RankSpec.
Import ListNotations.

(** * Sets as increasing lists *)
Lemma in_sadd : forall x a l, In x (sadd a l) <-> x = a \/ In x l.
Proof.
  induction l as [|y l IH]; cbn [sadd]; [cbn; intuition|].
  destruct (Nat.ltb_spec a y); [cbn; intuition|].
  destruct (Nat.eqb_spec a y) as [->|]; cbn; [intuition|]. rewrite IH. intuition.
Qed.

Lemma sadd_sorted : forall a l, StronglySorted lt l -> StronglySorted lt (sadd a l).
Proof.
  intros a l H. induction H as [|y l S IH F]; cbn [sadd].
  - constructor; constructor.
  - destruct (Nat.ltb_spec a y).
    + constructor; [constructor; auto|]. constructor; auto.
      eapply Forall_impl; [|exact F]. cbn. intros; lia.
    + destruct (Nat.eqb_spec a y) as [->|]; [constructor; auto|].
      constructor; auto. rewrite Forall_forall in *. intros z Hz. apply in_sadd in Hz.
      destruct Hz as [->|Hz]; [lia|auto].
Qed.

Lemma smem_iff : forall x l, smem x l = true <-> In x l.
Proof.
  intros x l. unfold smem. rewrite existsb_exists. split.
  - intros (y & Hy & E). apply Nat.eqb_eq in E. subst. auto.
  - intros H. exists x. split; auto. apply Nat.eqb_refl.
Qed.

Lemma in_sand : forall x a b, In x (sand a b) <-> In x a /\ In x b.
Proof. intros. unfold sand. rewrite filter_In, smem_iff. reflexivity. Qed.

Lemma in_sminus : forall x a b, In x (sminus a b) <-> In x a /\ ~ In x b.
Proof.
  intros. unfold sminus. rewrite filter_In, negb_true_iff. split; intros [A B]; split; auto.
  - intros C. apply smem_iff in C. congruence.
  - destruct (smem x b) eqn:E; auto. exfalso. apply B, smem_iff, E.
Qed.

Lemma in_sor : forall x b a, In x (sor a b) <-> In x a \/ In x b.
Proof.
  unfold sor. induction b as [|y b IH]; intros a; cbn; [intuition|].
  rewrite IH, in_sadd. intuition.
Qed.

Lemma sor_sorted : forall b a, StronglySorted lt a -> StronglySorted lt (sor a b).
Proof. unfold sor. induction b as [|y b IH]; intros a H; cbn; auto. apply IH, sadd_sorted, H. Qed.

Lemma filter_sorted : forall (p : nat -> bool) l, StronglySorted lt l -> StronglySorted lt (filter p l).
Proof.
  intros p l H. induction H as [|y l S IH F]; cbn; [constructor|].
  destruct (p y); auto. constructor; auto.
  rewrite Forall_forall in *. intros z Hz. apply filter_In in Hz. apply F, Hz.
Qed.

Lemma sorted_NoDup : forall l, StronglySorted lt l -> NoDup l.
Proof.
  intros l H. induction H as [|y l S IH F]; constructor; auto.
  intros C. rewrite Forall_forall in F. apply F in C. lia.
Qed.

Lemma is_empty_iff : forall l, is_empty l = true <-> forall x, ~ In x l.
Proof.
  intros [|x l]; cbn; split; intros H; auto; try discriminate. exfalso. apply (H x). auto.
Qed.

Lemma same_length : forall l1 l2 : list nat, NoDup l1 -> NoDup l2 ->
  (forall x, In x l1 <-> In x l2) -> length l1 = length l2.
Proof. intros. apply Permutation_length, NoDup_Permutation; auto. Qed.

Lemma NoDup_app : forall l1 l2 : list nat, NoDup l1 -> NoDup l2 ->
  (forall x, In x l1 -> ~ In x l2) -> NoDup (l1 ++ l2).
Proof.
  induction l1 as [|x l1 IH]; intros l2 H1 H2 D; cbn; auto.
  inversion H1; subst. constructor.
  - rewrite in_app_iff. intros [C|C]; auto. apply (D x); cbn; auto.
  - apply IH; auto. intros y Hy. apply D. cbn. auto.
Qed.

(** * Ranking *)
Section RankProofs.
Variable St : Type.
Variable eq_dec : forall x y : St, {x = y} + {x <> y}.
Variable univ : list St.
Hypothesis full : forall s, In s univ.
Variable guard : nat -> St -> bool.

Notation pred := (St -> bool).
Notation sat := (sat St univ).
Notation overlap := (overlap St univ).
Notation pand := (pand St eq_dec univ).
Notation por := (por St eq_dec univ).
Notation pminus := (pminus St eq_dec univ).
Notation dl0 := (dl0 St).
Notation pfalse := (pfalse St).
Notation dl_states := (dl_states St).
Notation dl_cands := (dl_cands St).
Notation bump := (bump St eq_dec univ).
Notation cnt := (enabled_count St guard).
Definition R (d : list (dlset St)) (j : nat) : pred := dl_states (nth j d dl0).
Definition Cs (d : list (dlset St)) (j : nat) : list nat := dl_cands (nth j d dl0).

Let PAND := pand_spec St eq_dec univ full.
Let POR := por_spec St eq_dec univ full.
Let PMINUS := pminus_spec St eq_dec univ full.

Lemma R_app_empty : forall d j s, R (d ++ [mkDl St pfalse []]) j s = R d j s.
Proof.
  intros d j s. unfold R. destruct (Nat.lt_ge_cases j (length d)).
  - rewrite app_nth1 by auto. reflexivity.
  - rewrite app_nth2 by auto. rewrite (nth_overflow d) by auto.
    destruct (j - length d) as [|[|]]; reflexivity.
Qed.

(** One step of the inner loop, as a function of its own. *)
Definition bump1 (g : pred) (i' : nat) (d : list (dlset St)) : list (dlset St) :=
  let resolved := pand (dl_states (nth i' d dl0)) g in
  if sat resolved then
    let d1 := if i' =? length d - 1 then d ++ [mkDl St pfalse []] else d in
    let a := nth i' d1 dl0 in
    let d2 := upd d1 i' (mkDl St (pminus (dl_states a) resolved) (dl_cands a)) in
    let b := nth (S i') d2 dl0 in
    upd d2 (S i') (mkDl St (por (dl_states b) resolved) (dl_cands b))
  else d.

Lemma bump_S : forall g i d, bump g (S i) d = bump g i (bump1 g i d).
Proof. reflexivity. Qed.

Lemma bump1_spec : forall g i d, i < length d ->
  (forall j s, R (bump1 g i d) j s =
     if j =? i then R d i s && negb (g s)
     else if j =? S i then R d (S i) s || R d i s && g s else R d j s) /\
  length (bump1 g i d) =
    (if (S i =? length d) && sat (pand (dl_states (nth i d dl0)) g) then S (length d) else length d) /\
  ((forall j, Cs d j = []) -> forall j, Cs (bump1 g i d) j = []).
Proof.
  intros g i d Hi. unfold bump1. cbv zeta.
  set (res := pand (dl_states (nth i d dl0)) g).
  assert (RES : forall s, res s = R d i s && g s) by (intros; apply PAND).
  destruct (sat res) eqn:Sa.
  2:{ rewrite andb_false_r. split; [|auto]. intros j s.
      pose proof (proj1 (sat_false St univ full res) Sa s) as E. rewrite RES in E.
      destruct (Nat.eqb_spec j i) as [->|].
      - destruct (R d i s), (g s); auto; discriminate.
      - destruct (Nat.eqb_spec j (S i)) as [->|]; auto. rewrite E, orb_false_r. reflexivity. }
  set (d1 := if i =? length d - 1 then d ++ [mkDl St pfalse []] else d).
  assert (L1 : length d1 = if S i =? length d then S (length d) else length d).
  { unfold d1. destruct (Nat.eqb_spec i (length d - 1)), (Nat.eqb_spec (S i) (length d)); try lia.
    rewrite app_length. cbn. lia. }
  assert (LS : S i < length d1) by (rewrite L1; destruct (Nat.eqb_spec (S i) (length d)); lia).
  assert (R1 : forall j s, R d1 j s = R d j s).
  { intros j s. unfold d1. destruct (i =? length d - 1); auto. apply R_app_empty. }
  split; [|split].
  - intros j s. unfold R at 1.
    set (x := mkDl St (pminus (dl_states (nth i d1 dl0)) res) (dl_cands (nth i d1 dl0))).
    rewrite (nth_upd_other _ d1 i (S i)) by lia.
    destruct (Nat.eqb_spec j i) as [->|N1].
    { rewrite nth_upd_other by lia. rewrite nth_upd_same by lia.
      cbn [RankModel.dl_states x]. unfold x. cbn [RankModel.dl_states]. rewrite PMINUS, RES. fold (R d1 i s).
      rewrite R1. destruct (R d i s), (g s); reflexivity. }
    destruct (Nat.eqb_spec j (S i)) as [->|N2].
    { rewrite nth_upd_same by (rewrite upd_length; lia).
      cbn [RankModel.dl_states]. rewrite POR, RES. fold (R d1 (S i) s). rewrite R1. reflexivity. }
    rewrite !nth_upd_other by lia. fold (R d1 j s). apply R1.
  - rewrite !upd_length, L1, andb_true_r. reflexivity.
  - intros C j. assert (C1 : forall j, Cs d1 j = []).
    { intros j0. unfold d1. destruct (i =? length d - 1); auto. unfold Cs.
      destruct (Nat.lt_ge_cases j0 (length d)).
      - rewrite app_nth1 by auto. apply C.
      - rewrite app_nth2 by auto. destruct (j0 - length d) as [|[|]]; reflexivity. }
    unfold Cs. destruct (Nat.eq_dec j (S i)) as [->|N2].
    { rewrite nth_upd_same by (rewrite upd_length; lia). cbn [RankModel.dl_cands].
      rewrite nth_upd_other by lia. apply C1. }
    rewrite (nth_upd_other _ _ (S i) j) by lia. destruct (Nat.eq_dec j i) as [->|N1].
    { rewrite nth_upd_same by lia. apply C1. }
    rewrite nth_upd_other by lia. apply C1.
Qed.

Lemma bump_spec : forall g i d, i <= length d ->
  (forall j s, R (bump g i d) j s =
     if j <? i then R d j s && negb (g s) || (0 <? j) && R d (j - 1) s && g s
     else if j =? i then R d i s || (0 <? i) && R d (i - 1) s && g s else R d j s) /\
  length (bump g i d) =
    (if (0 <? i) && (i =? length d) && sat (pand (dl_states (nth (i - 1) d dl0)) g)
     then S (length d) else length d) /\
  ((forall j, Cs d j = []) -> forall j, Cs (bump g i d) j = []).
Proof.
  intros g. induction i as [|i IH]; intros d Hi.
  - split; [|split]; auto. intros [|j] s; cbn; [rewrite orb_false_r|]; reflexivity.
  - rewrite bump_S. destruct (bump1_spec g i d Hi) as (B1 & B2 & B3).
    assert (L : length d <= length (bump1 g i d)) by (rewrite B2; destruct (_ && _); lia).
    destruct (IH (bump1 g i d)) as (I1 & I2 & I3); [lia|]. split; [|split].
    + intros j s. rewrite I1. replace (S i - 1) with i by lia.
      change (0 <? S i) with true. cbn [andb].
      destruct (Nat.ltb_spec j (S i)) as [Hj|Hj].
      * destruct (Nat.ltb_spec j i) as [Hj'|Hj'].
        { rewrite !B1. destruct (Nat.eqb_spec j i); [lia|]. destruct (Nat.eqb_spec j (S i)); [lia|].
          destruct (Nat.eqb_spec (j - 1) i); [lia|]. destruct (Nat.eqb_spec (j - 1) (S i)); [lia|].
          reflexivity. }
        { replace j with i by lia. rewrite Nat.eqb_refl, !B1, Nat.eqb_refl.
          destruct i as [|i]; [cbn; rewrite !orb_false_r; reflexivity|].
          replace (S i - 1) with i by lia.
          destruct (Nat.eqb_spec i (S i)); [lia|]. destruct (Nat.eqb_spec i (S (S i))); [lia|].
          reflexivity. }
      * destruct (Nat.ltb_spec j i); [lia|]. destruct (Nat.eqb_spec j i); [lia|].
        rewrite B1. destruct (Nat.eqb_spec j i); [lia|]. destruct (j =? S i); reflexivity.
    + rewrite I2. replace (S i - 1) with i by lia. change (0 <? S i) with true. cbn [andb].
      assert (NI : (i =? length (bump1 g i d)) = false) by (apply Nat.eqb_neq; lia).
      rewrite NI, andb_false_r. exact B2.
    + intros C. apply I3, B3, C.
Qed.

Lemma cnt_cons : forall a cs s, cnt (a :: cs) s = (if guard a s then 1 else 0) + cnt cs s.
Proof. intros. unfold enabled_count. cbn. destruct (guard a s); reflexivity. Qed.

(** The outer loop. *)
Lemma rank_loop_spec : forall dead cands done d,
  d <> [] ->
  (forall j s, R d j s = true <-> dead s /\ cnt done s = j) ->
  (forall j, Cs d j = []) ->
  (exists s, R d (length d - 1) s = true) ->
  let d' := rank_loop St eq_dec univ guard cands d in
  d' <> [] /\
  (forall j s, R d' j s = true <-> dead s /\ cnt (rev cands ++ done) s = j) /\
  (forall j, Cs d' j = []) /\
  (exists s, R d' (length d' - 1) s = true).
Proof.
  intros dead. induction cands as [|a cs IH]; intros done d Ne H C T; [cbn; auto|].
  cbn [rank_loop]. destruct (bump_spec (guard a) (length d) d (le_n _)) as (B1 & B2 & B3).
  assert (Ln : length d > 0) by (destruct d; [congruence|cbn; lia]).
  assert (OUT : forall s, R d (length d) s = false).
  { intros s. unfold R. rewrite nth_overflow by auto. reflexivity. }
  cbn [rev]. rewrite <- app_assoc. cbn [app]. apply IH.
  - intros E. apply (f_equal (@length _)) in E. rewrite B2 in E.
    destruct (_ && _) in E; cbn in E; lia.
  - intros j s. rewrite B1, cnt_cons.
    assert (OV : forall k, R d k s = true -> k < length d).
    { intros k Hk. destruct (Nat.lt_ge_cases k (length d)); auto.
      unfold R in Hk. rewrite nth_overflow in Hk by auto. discriminate. }
    pose proof (H j s) as Hj. pose proof (H (j - 1) s) as Hj1.
    pose proof (H (length d) s) as HL. pose proof (H (length d - 1) s) as HL1.
    rewrite OUT in *.
    destruct (Nat.ltb_spec j (length d)).
    + destruct (Nat.ltb_spec 0 j); destruct (guard a s) eqn:G; cbn [negb andb orb];
        rewrite ?andb_true_r, ?andb_false_r, ?orb_false_r; cbn [orb]; rewrite ?Hj, ?Hj1;
        intuition lia.
    + destruct (Nat.eqb_spec j (length d)) as [->|N].
      * destruct (Nat.ltb_spec 0 (length d)); [|lia]. destruct (guard a s); cbn [andb orb];
          rewrite ?andb_true_r, ?andb_false_r; rewrite ?HL1; [intuition lia|].
        split; [discriminate|]. intros X. apply HL in X. discriminate.
      * split; [intros X; apply OV in X; lia|]. intros [X Y].
        assert (Z : R d (cnt done s) s = true) by (apply H; auto). apply OV in Z.
        destruct (guard a s); lia.
  - apply B3, C.
  - destruct T as [s T]. destruct (Nat.ltb_spec 0 (length d)); [|lia].
    rewrite Nat.eqb_refl in B2. cbn [andb] in B2.
    destruct (sat (pand (dl_states (nth (length d - 1) d dl0)) (guard a))) eqn:Sa.
    + apply sat_spec in Sa; auto. destruct Sa as [t Ht]. exists t. rewrite B2, B1.
      replace (S (length d) - 1) with (length d) by lia. rewrite Nat.ltb_irrefl, Nat.eqb_refl.
      rewrite PAND in Ht. apply andb_true_iff in Ht. destruct Ht as [H1 H2].
      unfold R at 2. rewrite H1, H2. destruct (Nat.ltb_spec 0 (length d)); [|lia].
      rewrite orb_true_r. reflexivity.
    + exists s. rewrite B2, B1. destruct (Nat.ltb_spec (length d - 1) (length d)); [|lia].
      pose proof (proj1 (sat_false St univ full _) Sa s) as E. rewrite PAND in E.
      fold (R d (length d - 1) s) in E. rewrite T in *. cbn in E. rewrite E. reflexivity.
Qed.

Lemma note_nth : forall a d j,
  R (note_candidate St univ guard a d) j = R d j /\
  Cs (note_candidate St univ guard a d) j =
    if overlap (guard a) (R d j) then sadd a (Cs d j) else Cs d j.
Proof.
  intros a d j. unfold R, Cs, note_candidate.
  set (f := fun x : dlset St => _).
  assert (F0 : f dl0 = dl0).
  { unfold f. cbn [RankModel.dl_states RankModel.dl0].
    replace (overlap (guard a) pfalse) with false; auto.
    symmetry. destruct (overlap (guard a) pfalse) eqn:E; auto.
    apply overlap_spec in E; auto. destruct E as (t & _ & C). discriminate. }
  rewrite <- F0, map_nth, F0. unfold f.
  change (fun s => dl_states (nth j d dl0) s) with (dl_states (nth j d dl0)).
  destruct (overlap (guard a) (dl_states (nth j d dl0))); split; reflexivity.
Qed.

Lemma note_loop_spec : forall cands d,
  let d' := note_loop St univ guard cands d in
  length d' = length d /\
  forall j, R d' j = R d j /\
    (forall a, In a (Cs d' j) <-> In a (Cs d j) \/ In a cands /\ overlap (guard a) (R d j) = true) /\
    (StronglySorted lt (Cs d j) -> StronglySorted lt (Cs d' j)).
Proof.
  induction cands as [|a cs IH]; intros d.
  - cbn. split; auto. intros j. split; auto. split; auto. intros x. intuition.
  - cbn [note_loop]. destruct (IH (note_candidate St univ guard a d)) as [L I].
    split; [rewrite L; apply map_length|]. intros j.
    destruct (I j) as (I1 & I2 & I3). destruct (note_nth a d j) as [N1 N2].
    rewrite I1, N1. split; auto. split.
    + intros x. rewrite I2, N1, N2. destruct (overlap (guard a) (R d j)) eqn:O.
      * rewrite in_sadd. cbn. intuition; subst; auto.
      * cbn. intuition; subst; congruence.
    + intros S. apply I3. rewrite N2. destruct (overlap _ _); auto. apply sadd_sorted, S.
Qed.

Lemma cnt_rev : forall cs s, cnt (rev cs ++ []) s = cnt cs s.
Proof.
  intros cs s. rewrite app_nil_r. unfold enabled_count. apply Permutation_length.
  induction cs as [|a cs IH]; cbn; auto. rewrite filter_app. cbn.
  destruct (guard a s).
  - rewrite <- Permutation_cons_append. constructor. exact IH.
  - rewrite app_nil_r. exact IH.
Qed.

Theorem rank_deadlocks_exact : forall cands dead,
  let d := rank_deadlocks St eq_dec univ guard cands dead in
  ranking St guard (fun s => dead s = true) cands d /\
  (d = [] <-> forall s, dead s = false) /\
  (d <> [] -> exists s, dead s = true /\ cnt cands s = length d - 1).
Proof.
  intros cands dead. unfold rank_deadlocks. destruct (sat dead) eqn:Sa; cbn [negb]; cbv zeta.
  2:{ pose proof (proj1 (sat_false St univ full dead) Sa) as E.
      split; [|split; [split; auto|congruence]].
      assert (N : forall i, nth i [] dl0 = dl0) by (intros [|]; reflexivity).
      split; intros i; rewrite N; cbn.
      - intros s. rewrite E. intuition discriminate.
      - intros a. split; [tauto|]. intros (_ & s & H & _). rewrite E in H. discriminate.
      - constructor. }
  apply sat_spec in Sa; auto. destruct Sa as [s0 H0].
  destruct (rank_loop_spec (fun s => dead s = true) cands [] [mkDl St dead []]) as (A1 & A2 & A3 & A4).
  - discriminate.
  - intros [|j] s; cbn.
    + unfold R. cbn. intuition.
    + unfold R. cbn. destruct j; cbn; unfold RankModel.pfalse; intuition discriminate.
  - intros [|[|j]]; reflexivity.
  - exists s0. exact H0.
  - set (d1 := rank_loop St eq_dec univ guard cands [mkDl St dead []]) in *.
    destruct (note_loop_spec cands d1) as [L I].
    set (d := note_loop St univ guard cands d1) in *.
    assert (ST : forall i s, R d i s = true <-> dead s = true /\ cnt cands s = i).
    { intros i s. destruct (I i) as (I1 & _). rewrite I1, A2, cnt_rev. reflexivity. }
    assert (ND : d <> []).
    { intros E. rewrite E in L. cbn in L. destruct d1; [congruence|discriminate]. }
    split; [|split].
    + split.
      * exact ST.
      * intros i a. destruct (I i) as (I1 & I2 & I3). fold (Cs d i). rewrite I2, A3. cbn [In].
        rewrite overlap_spec by exact full. split.
        -- intros [[]|[Ha (s & G & Hs)]]. split; auto. exists s. rewrite <- I1 in Hs.
           apply ST in Hs. tauto.
        -- intros [Ha (s & Hs & E & G)]. right. split; auto. exists s. split; auto.
           rewrite <- I1. apply ST. auto.
      * intros i. apply (I i). rewrite A3. constructor.
    + split; [congruence|]. intros E. rewrite E in H0. discriminate.
    + intros _. destruct A4 as [s A4]. exists s. rewrite L.
      rewrite A2, cnt_rev in A4. exact A4.
Qed.
End RankProofs.
