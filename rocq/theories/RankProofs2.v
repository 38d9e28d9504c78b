(** Proofs about the revision of the ranking of deadlocks. *)
From Coq Require Import List Arith Bool Lia Sorted Permutation.
From Verif Require Import FinLib ReachModel ReachSpec ReachProofs RankModel RankSpec RankProofs.
Import ListNotations.

Section Revise.
Variable St : Type.
Variable eq_dec : forall x y : St, {x = y} + {x <> y}.
Variable univ : list St.
Hypothesis full : forall s, In s univ.
Variable guard : nat -> St -> bool.

Notation pred := (St -> bool).
Notation sat := (sat St univ).
Notation overlap := (overlap St univ).
Notation pand := (pand St eq_dec univ).
Notation por := (por St eq_dec univ).
Notation pminus := (pminus St eq_dec univ).
Notation dl0 := (dl0 St).
Notation pfalse := (pfalse St).
Notation dl_states := (dl_states St).
Notation dl_cands := (dl_cands St).
Notation cnt := (enabled_count St guard).
Notation R := (R St).
Notation Cs := (Cs St).
Notation guards := (guards St eq_dec univ guard).

Let PAND := pand_spec St eq_dec univ full.
Let POR := por_spec St eq_dec univ full.
Let PMINUS := pminus_spec St eq_dec univ full.

Lemma guards_iff : forall acts s, guards acts s = true <-> exists a, In a acts /\ guard a s = true.
Proof.
  intros acts s. unfold RankModel.guards.
  assert (G : forall acts p, fold_left (fun p a => por p (guard a)) acts p s = true <->
             p s = true \/ exists a, In a acts /\ guard a s = true).
  { induction acts0 as [|a l IH]; intros p; cbn [fold_left].
    - split; auto. intros [H|(a & [] & _)]; auto.
    - rewrite IH, POR, orb_true_iff. cbn [In]. split.
      + intros [[H|H]|(b & Hb & G)]; eauto.
      + intros [H|(b & [<-|Hb] & G)]; eauto. }
  rewrite G. split; auto. intros [C|H]; auto. discriminate.
Qed.

(** ** The deadlocks moved to lower ranks *)
Definition D (diff : list pred) (j : nat) : pred := nth j diff pfalse.

Lemma push_down_spec : forall g i n j diff m, 1 <= j -> j + n = S i -> length diff = S i -> m <= j ->
  let r := push_down St eq_dec univ g n j diff m in
  length (fst r) = S i /\
  (forall k s, D (fst r) k s =
     if k <? j - 1 then D diff k s
     else if k =? j - 1 then D diff k s || ((k <? i) && D diff (S k) s && g s)
     else (D diff k s && negb (g s)) || ((k <? i) && D diff (S k) s && g s)) /\
  (snd r = if (m =? j) && (0 <? n) && sat (pand g (D diff j)) then m - 1 else m).
Proof.
  intros g i. induction n as [|n IH]; intros j diff m Hj E L Hm.
  - cbn [push_down fst snd]. split; auto. rewrite andb_false_r. split; auto.
    intros k s. assert (OV : forall k, i < k -> D diff k s = false).
    { intros k0 Hk. unfold D. rewrite nth_overflow by lia. reflexivity. }
    destruct (Nat.ltb_spec k (j - 1)); auto. destruct (Nat.eqb_spec k (j - 1)).
    + destruct (Nat.ltb_spec k i); [lia|]. cbn. rewrite orb_false_r. reflexivity.
    + rewrite OV by lia. destruct (Nat.ltb_spec k i); [lia|]. reflexivity.
  - cbn [push_down]. set (p := pand g (nth j diff pfalse)).
    assert (P : forall s, p s = g s && D diff j s) by (intros; apply PAND).
    change (0 <? S n) with true. rewrite andb_true_r. fold (D diff j) in p.
    change (pand g (D diff j)) with p.
    destruct (sat p) eqn:Sa.
    + set (d1 := upd diff (j - 1) _). set (d2 := upd d1 j _).
      assert (L1 : length d1 = S i) by (unfold d1; rewrite upd_length; auto).
      assert (L2 : length d2 = S i) by (unfold d2; rewrite upd_length; auto).
      assert (X : forall k s, D d2 k s =
        if k =? j - 1 then D diff k s || D diff j s && g s
        else if k =? j then D diff j s && negb (g s) else D diff k s).
      { intros k s. unfold D, d2. destruct (Nat.eqb_spec k (j - 1)) as [->|N1].
        - rewrite nth_upd_other by lia. unfold d1. rewrite nth_upd_same by lia.
          rewrite POR, P. rewrite (andb_comm (g s)). reflexivity.
        - destruct (Nat.eqb_spec k j) as [->|N2].
          + rewrite nth_upd_same by lia. rewrite PMINUS, P. unfold d1. rewrite nth_upd_other by lia.
            unfold D. destruct (nth j diff pfalse s), (g s); reflexivity.
          + rewrite nth_upd_other by lia. unfold d1. rewrite nth_upd_other by lia. reflexivity. }
      destruct (IH (S j) d2 (if j =? m then m - 1 else m)) as (I1 & I2 & I3); auto; try lia.
      { destruct (j =? m); lia. }
      split; auto. split.
      * intros k s. rewrite I2, !X. replace (S j - 1) with j by lia.
        destruct (Nat.ltb_spec k (j - 1)).
        { destruct (Nat.ltb_spec k j); [|lia]. destruct (Nat.eqb_spec k (j - 1)); [lia|].
          destruct (Nat.eqb_spec k j); [lia|]. reflexivity. }
        destruct (Nat.eqb_spec k (j - 1)) as [->|N1].
        { destruct (Nat.ltb_spec (j - 1) j); [|lia]. replace (S (j - 1)) with j by lia.
          destruct (Nat.ltb_spec (j - 1) i); [|lia]. reflexivity. }
        destruct (Nat.ltb_spec k j); [lia|]. destruct (Nat.eqb_spec (S k) (j - 1)); [lia|].
        destruct (Nat.eqb_spec (S k) j); [lia|]. destruct (Nat.eqb_spec k j) as [->|N2]; reflexivity.
      * rewrite I3. destruct (Nat.eqb_spec j m) as [->|N].
        { destruct (Nat.eqb_spec (m - 1) (S m)); [lia|]. rewrite Nat.eqb_refl. reflexivity. }
        destruct (Nat.eqb_spec m (S j)); [lia|]. destruct (Nat.eqb_spec m j); [lia|]. reflexivity.
    + pose proof (proj1 (sat_false St univ full p) Sa) as Z.
      destruct (IH (S j) diff m) as (I1 & I2 & I3); auto; try lia.
      split; auto. split.
      * intros k s. rewrite I2. replace (S j - 1) with j by lia. specialize (Z s). rewrite P in Z.
        destruct (Nat.ltb_spec k (j - 1)).
        { destruct (Nat.ltb_spec k j); [|lia]. reflexivity. }
        destruct (Nat.eqb_spec k (j - 1)) as [->|N1].
        { destruct (Nat.ltb_spec (j - 1) j); [|lia]. replace (S (j - 1)) with j by lia.
          rewrite <- andb_assoc, (andb_comm _ (g s)), Z, andb_false_r, orb_false_r. reflexivity. }
        destruct (Nat.ltb_spec k j); [lia|]. destruct (Nat.eqb_spec k j) as [->|N2]; auto.
        destruct (D diff j s), (g s); try discriminate; reflexivity.
      * rewrite I3, andb_false_r. destruct (Nat.eqb_spec m (S j)); [lia|]. reflexivity.
Qed.

Lemma push_all_spec : forall i moved gone done diff m, 1 <= i -> length diff = S i -> m <= i ->
  (forall k s, D diff k s = true <-> moved s = true /\ cnt done s + k = i) ->
  (forall k s, k < m -> D diff k s = false) ->
  (m < i -> exists s, D diff m s = true) ->
  match push_all St eq_dec univ guard gone diff m with
  | Some (diff', m') =>
      length diff' = S i /\ m' <= i /\
      (forall k s, D diff' k s = true <-> moved s = true /\ cnt (rev gone ++ done) s + k = i) /\
      (forall k s, k < m' -> D diff' k s = false)
  | None => exists s done', moved s = true /\ (exists r, rev gone ++ done = r ++ done') /\ cnt done' s = i
  end.
Proof.
  intros i moved. induction gone as [|a gone IH]; intros done diff m Hi L Hm H1 H2 H3.
  - cbn [push_all]. cbn [rev app]. auto.
  - cbn [push_all]. destruct (Nat.ltb_spec 0 m) as [M|M].
    + pose proof (push_down_spec (guard a) i (length diff - m) m diff m) as P.
      destruct P as (P1 & P2 & P3); auto; try lia.
      destruct (push_down St eq_dec univ (guard a) (length diff - m) m diff m) as [diff' m'] eqn:E.
      cbn [fst snd] in *. rewrite Nat.eqb_refl in P3.
      destruct (Nat.ltb_spec 0 (length diff - m)); [|lia]. cbn [andb] in P3.
      cbn [rev]. rewrite <- app_assoc. cbn [app].
      assert (OV : forall k s, i < k -> D diff k s = false).
      { intros k s Hk. unfold D. rewrite nth_overflow by lia. reflexivity. }
      assert (X : forall k s, D diff' k s = (D diff k s && negb (guard a s)) || (D diff (S k) s && guard a s)).
      { intros k s. rewrite P2. destruct (Nat.ltb_spec k (m - 1)).
        - rewrite !H2 by lia. reflexivity.
        - destruct (Nat.eqb_spec k (m - 1)) as [->|].
          + rewrite H2 by lia. destruct (Nat.ltb_spec (m - 1) i); [|lia]. reflexivity.
          + destruct (Nat.ltb_spec k i); [reflexivity|]. rewrite (OV (S k)) by lia. reflexivity. }
      assert (Q : forall s, pand (guard a) (D diff m) s = guard a s && D diff m s) by (intros; apply PAND).
      apply IH; auto.
      * rewrite P3. destruct (sat _); lia.
      * intros k s. rewrite X, cnt_cons.
        pose proof (H1 k s) as A. pose proof (H1 (S k) s) as B.
        destruct (guard a s); rewrite ?andb_true_r, ?andb_false_r, ?orb_false_r; cbn [negb orb];
          rewrite ?andb_true_r, ?andb_false_r, ?orb_false_r; cbn [orb]; [rewrite B|rewrite A]; intuition lia.
      * intros k s Hk. rewrite X. destruct (sat _) eqn:Sa.
        { rewrite !H2 by lia. reflexivity. }
        pose proof (proj1 (sat_false St univ full _) Sa s) as Z. rewrite Q in Z.
        rewrite H2 by lia. cbn. destruct (Nat.eq_dec (S k) m) as [->|N].
        { rewrite andb_comm. exact Z. }
        rewrite H2 by lia. reflexivity.
      * intros Hlt. destruct (sat _) eqn:Sa.
        { apply sat_spec in Sa; auto. destruct Sa as [s Hs]. exists s. rewrite X, P3.
          rewrite Q in Hs. apply andb_true_iff in Hs. destruct Hs as [G Hs].
          replace (S (m - 1)) with m by lia. rewrite G, Hs, orb_true_r. reflexivity. }
        destruct H3 as [s Hs]; [lia|]. exists s. rewrite X, P3, Hs.
        pose proof (proj1 (sat_false St univ full _) Sa s) as Z. rewrite Q, Hs, andb_true_r in Z.
        rewrite Z. reflexivity.
    + destruct H3 as [s Hs]; [lia|]. replace m with 0 in Hs by lia. apply H1 in Hs.
      exists s, done. split; [tauto|]. split; [|lia]. exists (rev (a :: gone)). reflexivity.
Qed.

(** ** Counting *)
Lemma cnt_split : forall cands adds dels gone s, NoDup cands -> NoDup gone ->
  (forall a, In a adds -> In a cands -> guard a s = false) ->
  (forall a, In a gone -> In a cands /\ In a dels /\ ~ In a adds) ->
  (forall a, In a cands -> In a dels -> ~ In a adds -> guard a s = true -> In a gone) ->
  cnt cands s = cnt (sminus (sminus cands adds) dels) s + cnt gone s.
Proof.
  intros cands adds dels gone s N1 N2 HA HG HD. unfold enabled_count. rewrite <- app_length.
  apply same_length.
  - apply NoDup_filter, N1.
  - apply NoDup_app.
    + apply NoDup_filter. unfold sminus. apply NoDup_filter, NoDup_filter, N1.
    + apply NoDup_filter, N2.
    + intros x H1 H2. apply filter_In in H1, H2. destruct H1 as [H1 _], H2 as [H2 _].
      apply in_sminus in H1. apply HG in H2. tauto.
  - intros x. rewrite in_app_iff, !filter_In, !in_sminus.
    pose proof (HA x) as A. pose proof (HG x) as B. pose proof (HD x) as C.
    destruct (in_dec Nat.eq_dec x adds), (in_dec Nat.eq_dec x dels); intuition congruence.
Qed.

(** ** One rank *)
Variable cands adds dels : list nat.
Variable dead : St -> Prop.
Hypothesis ND : NoDup cands.
Hypothesis ADDS : forall a, In a adds -> In a cands.
Hypothesis DELS : forall a, In a dels -> In a cands.

Definition newc : list nat := sminus (sminus cands adds) dels.
Definition added (s : St) : Prop := exists a, In a adds /\ guard a s = true.

(** What the ranks hold before rank [i] is treated. *)
Definition inv (i : nat) (d : list (dlset St)) : Prop :=
  (forall k s, i <= k -> R d k s = true <-> dead s /\ cnt cands s = k) /\
  (forall k a, i <= k -> In a (Cs d k) <->
     In a cands /\ exists s, dead s /\ cnt cands s = k /\ guard a s = true) /\
  (forall k s, k < i -> R d k s = true <-> dead s /\ ~ added s /\ cnt cands s < i /\ cnt newc s = k) /\
  (forall k a, k < i -> In a (Cs d k) <->
     In a newc /\ exists s, dead s /\ ~ added s /\ cnt cands s < i /\ cnt newc s = k /\ guard a s = true) /\
  (forall k, StronglySorted lt (Cs d k)).

Lemma cnt_zero : forall acts s, cnt acts s = 0 <-> forall a, In a acts -> guard a s = false.
Proof.
  intros acts s. unfold enabled_count. split.
  - intros H a Ha. destruct (guard a s) eqn:G; auto.
    assert (I : In a (filter (fun a => guard a s) acts)) by (apply filter_In; auto).
    destruct (filter _ acts); [destruct I|discriminate].
  - intros H. destruct (filter _ acts) as [|a l] eqn:E; auto.
    assert (I : In a (filter (fun a => guard a s) acts)) by (rewrite E; cbn; auto).
    apply filter_In in I. destruct I as [I1 I2]. rewrite H in I2; auto. discriminate.
Qed.

Lemma in_newc : forall a, In a newc <-> In a cands /\ ~ In a adds /\ ~ In a dels.
Proof. intros a. unfold newc. rewrite !in_sminus. tauto. Qed.

Lemma newc_le : forall s, cnt newc s <= cnt cands s.
Proof.
  intros s. unfold enabled_count. apply NoDup_incl_length.
  - apply NoDup_filter. unfold newc, sminus. apply NoDup_filter, NoDup_filter, ND.
  - intros x. rewrite !filter_In, in_newc. tauto.
Qed.

Lemma inv_start : forall d, ranking St guard dead cands d -> inv 1 d.
Proof.
  intros d [H1 H2 H3]. split; [|split; [|split; [|split]]].
  - intros k s _. apply H1.
  - intros k a _. apply H2.
  - intros k s Hk. replace k with 0 by lia. fold (R d 0 s) in *. unfold RankProofs.R. rewrite H1.
    split.
    + intros [Hd Hc]. split; auto. split; [|pose proof (newc_le s); lia].
      intros (a & Ha & G). rewrite cnt_zero in Hc. rewrite Hc in G by auto. discriminate.
    + intros (Hd & _ & Hc & _). split; auto. lia.
  - intros k a Hk. replace k with 0 by lia. unfold RankProofs.Cs. rewrite H2. split.
    + intros (Ha & s & _ & Hc & G). rewrite cnt_zero in Hc. rewrite Hc in G by auto. discriminate.
    + intros (Ha & s & _ & _ & _ & Hc & G). rewrite cnt_zero in Hc. rewrite Hc in G by auto. discriminate.
  - exact H3.
Qed.

(** A state of rank [i] that no added action resolves. *)
Definition S1 (i : nat) (s : St) : Prop := dead s /\ cnt cands s = i /\ ~ added s.

Lemma inv_step : forall i d d2, inv i d ->
  (forall k s, i < k -> R d2 k s = R d k s) ->
  (forall k, i < k -> Cs d2 k = Cs d k) ->
  (forall s, R d2 i s = true <-> S1 i s /\ cnt newc s = i) ->
  (forall a, In a (Cs d2 i) <-> In a newc /\ exists s, S1 i s /\ cnt newc s = i /\ guard a s = true) ->
  (forall k s, k < i -> R d2 k s = true <-> R d k s = true \/ (S1 i s /\ cnt newc s = k)) ->
  (forall k a, k < i -> In a (Cs d2 k) <->
     In a (Cs d k) \/ (In a newc /\ exists s, S1 i s /\ cnt newc s = k /\ guard a s = true)) ->
  (forall k, k <= i -> StronglySorted lt (Cs d2 k)) ->
  inv (S i) d2.
Proof.
  intros i d d2 (I1 & I2 & I3 & I4 & I5) A1 A2 A3 A4 A5 A6 A7.
  split; [|split; [|split; [|split]]].
  - intros k s Hk. rewrite A1 by lia. apply I1. lia.
  - intros k a Hk. rewrite A2 by lia. apply I2. lia.
  - intros k s Hk. unfold S1 in *. pose proof (newc_le s). destruct (Nat.eq_dec k i) as [->|N].
    + rewrite A3. intuition lia.
    + rewrite A5, I3 by lia. split; [intuition lia|]. intros (H1 & H2 & H3 & H4).
      destruct (Nat.eq_dec (cnt cands s) i); [right|left]; repeat split; auto; lia.
  - intros k a Hk. unfold S1 in *. destruct (Nat.eq_dec k i) as [->|N].
    + rewrite A4. split; intros (Ha & s & H); split; auto; exists s; pose proof (newc_le s); intuition lia.
    + rewrite A6, I4 by lia. split.
      * intros [(Ha & s & H)|(Ha & s & H)]; split; auto; exists s; intuition lia.
      * intros (Ha & s & H). destruct (Nat.eq_dec (cnt cands s) i).
        -- right. split; auto. exists s. intuition.
        -- left. split; auto. exists s. intuition lia.
  - intros k. destruct (Nat.le_gt_cases k i); auto. rewrite A2 by lia. apply I5.
Qed.

Lemma revise_adds_spec : forall i d, inv i d ->
  let x := revise_adds St eq_dec univ guard adds (guards adds) (nth i d dl0) in
  (forall s, dl_states x s = true <-> S1 i s) /\
  (forall a, In a (dl_cands x) <->
     In a cands /\ ~ In a adds /\ exists s, S1 i s /\ guard a s = true) /\
  StronglySorted lt (dl_cands x).
Proof.
  intros i d (I1 & I2 & _ & _ & I5). unfold revise_adds. cbv zeta.
  set (diff := sand _ _).
  assert (ID : forall a, In a diff <-> In a (Cs d i) /\ In a adds).
  { intros a. unfold diff. rewrite !in_sand. unfold RankProofs.Cs. tauto. }
  destruct (is_empty diff) eqn:E.
  - pose proof (proj1 (is_empty_iff _) E) as Z.
    assert (NA : forall s, dead s /\ cnt cands s = i -> ~ added s).
    { intros s H (a & Ha & G). apply (Z a), ID. split; auto. apply I2; auto. split; auto.
      exists s. tauto. }
    split; [|split].
    + intros s. change (R d i s = true <-> S1 i s). rewrite I1 by lia. unfold S1.
      pose proof (NA s). tauto.
    + intros a. change (In a (Cs d i) <-> In a cands /\ ~ In a adds /\ exists s, S1 i s /\ guard a s = true).
      split.
      * intros H. pose proof H as H'. apply I2 in H; auto. destruct H as (Ha & s & H1 & H2 & H3).
        split; auto. split; [intros C; apply (Z a), ID; auto|]. exists s. unfold S1.
        pose proof (NA s). tauto.
      * intros (Ha & _ & s & (H1 & H2 & _) & H3). apply I2; auto. split; auto. exists s. auto.
    + apply I5.
  - cbn [RankModel.dl_states RankModel.dl_cands].
    assert (ST : forall s, pminus (dl_states (nth i d dl0)) (guards adds) s = true <-> S1 i s).
    { intros s. rewrite PMINUS, andb_true_iff, negb_true_iff. fold (R d i s).
      unfold S1. change (dl_states (nth i d dl0) s) with (R d i s). rewrite I1 by lia.
      rewrite <- not_true_iff_false, guards_iff. unfold added. tauto. }
    split; auto. split.
    + intros a. rewrite in_sminus, filter_In, in_sminus, ID, negb_true_iff, <- not_true_iff_false.
      change (dl_cands (nth i d dl0)) with (Cs d i).
      rewrite overlap_spec by exact full. split.
      * intros ((H1 & H2) & H3). pose proof H1 as H1'. apply I2 in H1; auto. destruct H1 as (Ha & _).
        split; auto. split; [intros C; apply H2; auto|].
        destruct (overlap (pminus (dl_states (nth i d dl0)) (guards adds)) (guard a)) eqn:O.
        -- apply overlap_spec in O; auto. destruct O as (s & O1 & O2). exists s. split; auto. apply ST, O1.
        -- exfalso. apply H3. split; [split; auto|]. intros C. apply (overlap_spec St univ full) in C. congruence.
      * intros (Ha & Hn & s & H1 & H2).
        assert (IC : In a (Cs d i)).
        { apply I2; auto. split; auto. exists s. unfold S1 in H1. tauto. }
        split; [split; auto; tauto|]. intros [_ C]. apply C. exists s. split; auto. apply ST, H1.
    + apply filter_sorted, filter_sorted, I5.
Qed.

Lemma in_moved_cands : forall cs moved diff m i j a,
  In a (moved_cands St univ guard cs moved diff m i j) <->
  In a cs /\ (if overlap (guard a) moved
              then (m <=? j) && (j <=? i) && overlap (guard a) (D diff j) = true
              else j = i).
Proof.
  intros cs moved diff m i j a. unfold moved_cands.
  assert (G : forall cs l, In a (fold_left (fun l a =>
    if negb (overlap (guard a) moved) then (if j =? i then sadd a l else l)
    else if (m <=? j) && (j <=? i) && overlap (guard a) (nth j diff pfalse)
         then sadd a l else l) cs l) <-> In a l \/
    In a cs /\ (if overlap (guard a) moved
              then (m <=? j) && (j <=? i) && overlap (guard a) (D diff j) = true
              else j = i)).
  { induction cs0 as [|b cs0 IH]; intros l; cbn [fold_left]; [cbn; tauto|].
    rewrite IH. cbn [In]. clear IH.
    destruct (Nat.eq_dec b a) as [->|N].
    - fold (D diff j). destruct (overlap (guard a) moved); cbn [negb].
      + destruct ((m <=? j) && (j <=? i) && overlap (guard a) (D diff j)) eqn:E.
        * rewrite in_sadd. tauto.
        * intuition discriminate.
      + destruct (Nat.eqb_spec j i); [rewrite in_sadd|]; tauto.
    - assert (Z : forall c : bool, In a (if c then sadd b l else l) <-> In a l).
      { intros [|]; [rewrite in_sadd|]; intuition congruence. }
      destruct (negb (overlap (guard b) moved)); rewrite Z; intuition congruence. }
  rewrite G. cbn. tauto.
Qed.

Lemma moved_cands_sorted : forall cs moved diff m i j,
  StronglySorted lt (moved_cands St univ guard cs moved diff m i j).
Proof.
  intros cs moved diff m i j. unfold moved_cands.
  match goal with |- _ (fold_left ?f cs []) =>
    assert (G : forall cs l, StronglySorted lt l -> StronglySorted lt (fold_left f cs l)) end.
  { induction cs0 as [|b cs0 IH]; intros l Hl; cbn [fold_left]; auto. apply IH.
    destruct (negb _); [destruct (j =? i)|destruct (_ && _ && _)]; auto; apply sadd_sorted; auto. }
  apply G. constructor.
Qed.

Lemma nth_number : forall (d : list (dlset St)) (f : nat * dlset St -> dlset St) k,
  k < length d ->
  nth k (map f (combine (seq 0 (length d)) d)) dl0 = f (k, nth k d dl0).
Proof.
  intros d f k Hk. rewrite nth_indep with (d' := f (0, dl0))
    by (rewrite map_length, combine_length, seq_length; lia).
  rewrite map_nth, combine_nth by (apply seq_length). rewrite seq_nth by auto. reflexivity.
Qed.

Lemma revise_step : forall i d, inv i d -> 1 <= i -> i < length d ->
  let d1 := upd d i (revise_adds St eq_dec univ guard adds (guards adds) (nth i d dl0)) in
  match revise_dels St eq_dec univ guard dels (guards dels) i d1 with
  | Some d2 => inv (S i) d2 /\ length d2 = length d
  | None => exists s, dead s /\ ~ added s /\ cnt newc s = 0
  end.
Proof.
  intros i d I Hi Hl. cbv zeta.
  set (x := revise_adds St eq_dec univ guard adds (guards adds) (nth i d dl0)).
  destruct (revise_adds_spec i d I) as (X1 & X2 & X3). fold x in X1, X2, X3.
  set (d1 := upd d i x).
  assert (L1 : length d1 = length d) by apply upd_length.
  assert (N1 : nth i d1 dl0 = x) by (apply nth_upd_same; auto).
  assert (N2 : forall k, k <> i -> nth k d1 dl0 = nth k d dl0) by (intros; apply nth_upd_other; auto).
  unfold revise_dels. rewrite N1. cbv zeta.
  set (gone := sand (dl_cands x) (sand (dl_cands x) dels)).
  assert (GO : forall a, In a gone <-> In a (dl_cands x) /\ In a dels).
  { intros a. unfold gone. rewrite !in_sand. tauto. }
  assert (GN : NoDup gone) by (apply sorted_NoDup, filter_sorted, X3).
  assert (CS : forall s, S1 i s -> cnt newc s + cnt gone s = i).
  { intros s Hs. pose proof Hs as (_ & Hc & Hn). rewrite <- Hc. symmetry. unfold newc.
    apply cnt_split; auto.
    - intros a Ha _. destruct (guard a s) eqn:G; auto. exfalso. apply Hn. exists a. auto.
    - intros a Ha. apply GO in Ha. destruct Ha as [Ha Hd]. apply X2 in Ha. tauto.
    - intros a H1 H2 H3 H4. apply GO. split; auto. apply X2. split; auto. split; auto.
      exists s. auto. }
  assert (XN : forall a, In a newc -> (exists s, S1 i s /\ guard a s = true) -> In a (dl_cands x) /\ ~ In a gone).
  { intros a Ha Hs. apply in_newc in Ha. split; [apply X2; tauto|]. intros C. apply GO in C. tauto. }
  assert (XN' : forall a, In a (dl_cands x) -> ~ In a gone -> In a newc).
  { intros a Ha Hg. apply in_newc. pose proof (proj1 (X2 a) Ha) as (A & B & _).
    split; auto. split; auto. intros C. apply Hg, GO. auto. }
  destruct (is_empty gone) eqn:E.
  - pose proof (proj1 (is_empty_iff _) E) as Z.
    assert (ZC : forall s, S1 i s -> cnt newc s = i).
    { intros s Hs. pose proof (CS s Hs) as C. rewrite (proj2 (cnt_zero gone s)) in C; [lia|].
      intros a Ha. destruct (Z a Ha). }
    split; auto. apply inv_step with (d := d); auto.
    + intros k s Hk. unfold RankProofs.R. rewrite N2 by lia. reflexivity.
    + intros k Hk. unfold RankProofs.Cs. rewrite N2 by lia. reflexivity.
    + intros s. unfold RankProofs.R. rewrite N1, X1. pose proof (ZC s). tauto.
    + intros a. unfold RankProofs.Cs. rewrite N1. split.
      * intros Ha. split; [apply XN'; auto|]. apply X2 in Ha. destruct Ha as (_ & _ & s & H1 & H2).
        exists s. auto.
      * intros (Ha & s & H1 & H2 & H3). apply XN; auto. exists s. auto.
    + intros k s Hk. unfold RankProofs.R. rewrite N2 by lia. split; auto. intros [H|[H1 H2]]; auto.
      apply ZC in H1. lia.
    + intros k a Hk. unfold RankProofs.Cs. rewrite N2 by lia. split; auto.
      intros [H|(_ & s & H1 & H2 & _)]; auto. apply ZC in H1. lia.
    + intros k Hk. unfold RankProofs.Cs. destruct (Nat.eq_dec k i) as [->|N]; [rewrite N1; auto|].
      rewrite N2 by auto. apply I.
  - set (moved := pand (dl_states x) (guards dels)). set (kept := pminus (dl_states x) moved).
    assert (MV : forall s, moved s = true <-> S1 i s /\ exists a, In a dels /\ guard a s = true).
    { intros s. unfold moved. rewrite PAND, andb_true_iff, X1, guards_iff. reflexivity. }
    assert (KP : forall s, kept s = true <-> S1 i s /\ ~ exists a, In a dels /\ guard a s = true).
    { intros s. unfold kept. rewrite PMINUS, andb_true_iff, negb_true_iff, X1, <- not_true_iff_false, MV. tauto. }
    assert (MC : forall s, moved s = true -> 1 <= cnt gone s).
    { intros s Hs. apply MV in Hs. destruct Hs as [Hs (a & Ha & G)].
      destruct (cnt gone s) eqn:C; [|lia]. rewrite cnt_zero in C. rewrite C in G; [discriminate|].
      apply GO. split; auto. apply X2. split; [apply DELS, Ha|]. split; [|exists s; auto].
      intros B. destruct Hs as (_ & _ & Hn). apply Hn. exists a. auto. }
    assert (KC : forall s, kept s = true <-> S1 i s /\ cnt newc s = i).
    { intros s. rewrite KP. split; intros [Hs H]; split; auto.
      - pose proof (CS s Hs) as C. rewrite (proj2 (cnt_zero gone s)) in C; [lia|].
        intros a Ha. destruct (guard a s) eqn:G; auto. exfalso. apply H. exists a. split; auto.
        apply GO, Ha.
      - intros K. assert (M : moved s = true) by (apply MV; auto). apply MC in M.
        pose proof (CS s Hs). lia. }
    pose proof (push_all_spec i moved gone [] (repeat pfalse i ++ [moved]) i Hi) as P.
    assert (LR : length (repeat pfalse i ++ [moved]) = S i) by (rewrite app_length, repeat_length; cbn; lia).
    specialize (P LR (le_n i)).
    destruct (push_all St eq_dec univ guard gone (repeat pfalse i ++ [moved]) i) as [[diff0 m]|] eqn:EP.
    + destruct P as (P1 & P2 & P3 & P4).
      { intros k s. unfold D. destruct (Nat.lt_ge_cases k i).
        - rewrite app_nth1 by (rewrite repeat_length; auto). rewrite nth_repeat. cbn.
          unfold RankModel.pfalse. split; [discriminate|]. intros [_ C]. cbn in C. lia.
        - rewrite app_nth2 by (rewrite repeat_length; auto). rewrite repeat_length.
          destruct (k - i) as [|[|n]] eqn:K; cbn.
          + unfold enabled_count. cbn. intuition lia.
          + unfold RankModel.pfalse. split; [discriminate|]. intros [_ C]. lia.
          + unfold RankModel.pfalse. split; [discriminate|]. intros [_ C]. lia. }
      { intros k s Hk. unfold D. rewrite app_nth1 by (rewrite repeat_length; auto). rewrite nth_repeat. reflexivity. }
      { lia. }
      set (diff := upd diff0 i kept).
      assert (DK : forall k s, k < i -> D diff k s = true <-> S1 i s /\ cnt newc s = k).
      { intros k s Hk. unfold D, diff. rewrite nth_upd_other by lia. fold (D diff0 k). rewrite P3.
        rewrite cnt_rev. split.
        - intros [M C]. pose proof (proj1 (MV s) M) as [Hs _]. split; auto. pose proof (CS s Hs). lia.
        - intros [Hs C]. pose proof (CS s Hs) as Q. split; [|lia].
          destruct (moved s) eqn:M; auto. exfalso.
          assert (K : kept s = true).
          { unfold kept. rewrite PMINUS, M, andb_true_r. apply X1, Hs. }
          apply KC in K. lia. }
      assert (DI : forall s, D diff i s = kept s).
      { intros s. unfold D, diff. rewrite nth_upd_same by lia. reflexivity. }
      assert (DM : forall k s, k < i -> D diff k s = true -> moved s = true).
      { intros k s Hk H. unfold D, diff in H. rewrite nth_upd_other in H by lia. apply P3 in H. tauto. }
      assert (DE : forall k s, k < m -> k < i -> ~ (S1 i s /\ cnt newc s = k)).
      { intros k s H1 H2 C. apply DK in C; auto. unfold D, diff in C. rewrite nth_upd_other in C by lia.
        fold (D diff0 k s) in C. rewrite P4 in C by auto. discriminate. }
      set (f := fun p : nat * dlset St => _).
      assert (NF : forall k, k < length d -> nth k (map f (combine (seq 0 (length d1)) d1)) dl0 = f (k, nth k d1 dl0)).
      { intros k Hk. apply nth_number. lia. }
      assert (NO : forall k, length d <= k -> nth k (map f (combine (seq 0 (length d1)) d1)) dl0 = nth k d dl0).
      { intros k Hk. rewrite !nth_overflow; auto.
        rewrite map_length, combine_length, seq_length. lia. }
      split; [|rewrite map_length, combine_length, seq_length; lia].
      assert (GT : forall k, i < k -> nth k (map f (combine (seq 0 (length d1)) d1)) dl0 = nth k d dl0).
      { intros k Hk. destruct (Nat.lt_ge_cases k (length d)); auto. rewrite NF by auto.
        unfold f. cbn [fst snd]. destruct (Nat.ltb_spec k i); [lia|]. rewrite andb_false_r.
        destruct (Nat.eqb_spec k i); [lia|]. apply N2. lia. }
      assert (FI : f (i, nth i d1 dl0) =
        mkDl St kept (sand (sminus (dl_cands x) gone)
          (moved_cands St univ guard (sminus (dl_cands x) gone) moved diff m i i))).
      { unfold f. cbn [fst snd]. rewrite Nat.ltb_irrefl, andb_false_r, Nat.eqb_refl. reflexivity. }
      assert (FL : forall k, k < i -> f (k, nth k d1 dl0) =
        if m <=? k then
          mkDl St (por (dl_states (nth k d dl0)) (nth k diff pfalse))
             (sor (dl_cands (nth k d dl0))
                (moved_cands St univ guard (sminus (dl_cands x) gone) moved diff m i k))
        else nth k d dl0).
      { intros k Hk. unfold f. cbn [fst snd]. rewrite N2 by lia.
        destruct (Nat.ltb_spec k i); [|lia]. rewrite andb_true_r. destruct (m <=? k); auto.
        destruct (Nat.eqb_spec k i); [lia|]. reflexivity. }
      apply inv_step with (d := d); auto.
      * intros k s Hk. unfold RankProofs.R. rewrite GT by lia. reflexivity.
      * intros k Hk. unfold RankProofs.Cs. rewrite GT by lia. reflexivity.
      * intros s. unfold RankProofs.R. rewrite NF, FI by lia. cbn [RankModel.dl_states]. apply KC.
      * intros a. unfold RankProofs.Cs. rewrite NF, FI by lia. cbn [RankModel.dl_cands].
        rewrite in_sand, in_moved_cands, in_sminus.
        assert (OK : overlap (guard a) (D diff i) = true <-> exists s, S1 i s /\ cnt newc s = i /\ guard a s = true).
        { rewrite overlap_spec by exact full. split; intros (s & H).
          - exists s. rewrite DI in H. destruct H as [G H]. apply KC in H. tauto.
          - exists s. rewrite DI. split; [tauto|]. apply KC. tauto. }
        split.
        -- intros ((A & B) & _ & C). split; [apply XN'; auto|].
           destruct (overlap (guard a) moved) eqn:O.
           ++ apply OK. apply andb_true_iff in C. apply C.
           ++ apply X2 in A. destruct A as (_ & _ & s & H1 & H2). exists s. split; auto. split; auto.
              apply KC. unfold kept. rewrite PMINUS. rewrite (proj2 (X1 s) H1). cbn.
              destruct (moved s) eqn:M; auto. exfalso.
              assert (T : overlap (guard a) moved = true) by (apply overlap_spec; auto; exists s; auto).
              congruence.
        -- intros (A & B). assert (B' : exists s, S1 i s /\ guard a s = true).
           { destruct B as (s & H1 & H2 & H3). exists s. auto. }
           destruct (XN a A B') as [Y1 Y2]. split; [auto|]. split; [auto|].
           destruct (overlap (guard a) moved); auto. apply OK in B. rewrite B.
           rewrite (proj2 (Nat.leb_le m i)) by auto. rewrite Nat.leb_refl. reflexivity.
      * intros k s Hk. unfold RankProofs.R. rewrite NF, FL by lia.
        destruct (Nat.leb_spec m k).
        -- cbn [RankModel.dl_states]. rewrite POR, orb_true_iff. fold (D diff k s).
           change (nth k diff pfalse s) with (D diff k s). rewrite DK by auto. reflexivity.
        -- split; auto. intros [C|C]; auto. exfalso. apply (DE k s); auto.
      * intros k a Hk. unfold RankProofs.Cs. rewrite NF, FL by lia.
        destruct (Nat.leb_spec m k) as [M|M].
        -- cbn [RankModel.dl_cands]. rewrite in_sor, in_moved_cands, in_sminus.
           assert (OK : overlap (guard a) (D diff k) = true <-> exists s, S1 i s /\ cnt newc s = k /\ guard a s = true).
           { rewrite overlap_spec by exact full. split; intros (s & H).
             - exists s. destruct H as [G H]. apply DK in H; auto. tauto.
             - exists s. split; [tauto|]. apply DK; auto. tauto. }
           split; (intros [A|A]; [left; exact A|right]).
           ++ destruct A as ((A & B) & C). split; [apply XN'; auto|]. apply OK.
              destruct (overlap (guard a) moved); [apply andb_true_iff in C; apply C|lia].
           ++ destruct A as (A & B). assert (B' : exists s, S1 i s /\ guard a s = true).
              { destruct B as (s & H1 & H2 & H3). exists s. auto. }
              destruct (XN a A B') as [Y1 Y2]. split; [auto|].
              assert (OM : overlap (guard a) moved = true).
              { destruct B as (s & H1 & H2 & H3). apply overlap_spec; auto. exists s. split; auto.
                apply (DM k); auto. apply DK; auto. }
              rewrite OM. apply OK in B. rewrite B.
              rewrite (proj2 (Nat.leb_le m k)) by auto. rewrite (proj2 (Nat.leb_le k i)) by lia. reflexivity.
        -- split; auto. intros [C|(_ & s & H1 & H2 & _)]; auto. exfalso. apply (DE k s); auto.
      * intros k Hk. unfold RankProofs.Cs. rewrite NF by lia. destruct (Nat.eq_dec k i) as [->|N].
        -- rewrite FI. apply filter_sorted, filter_sorted, X3.
        -- rewrite FL by lia. destruct (m <=? k); [apply sor_sorted|]; apply I.
    + destruct P as (s & done & H1 & (r & H2) & H3).
      { intros k s. unfold D. destruct (Nat.lt_ge_cases k i).
        - rewrite app_nth1 by (rewrite repeat_length; auto). rewrite nth_repeat. cbn.
          unfold RankModel.pfalse. split; [discriminate|]. intros [_ C]. cbn in C. lia.
        - rewrite app_nth2 by (rewrite repeat_length; auto). rewrite repeat_length.
          destruct (k - i) as [|[|n]] eqn:K; cbn.
          + unfold enabled_count. cbn. intuition lia.
          + unfold RankModel.pfalse. split; [discriminate|]. intros [_ C]. lia.
          + unfold RankModel.pfalse. split; [discriminate|]. intros [_ C]. lia. }
      { intros k s Hk. unfold D. rewrite app_nth1 by (rewrite repeat_length; auto). rewrite nth_repeat. reflexivity. }
      { lia. }
      exists s. apply MV in H1. destruct H1 as [Hs _]. pose proof Hs as (Hd & _ & Hn).
      split; auto. split; auto. pose proof (CS s Hs) as C.
      assert (cnt done s <= cnt gone s); [|lia].
      rewrite <- (cnt_rev St guard gone s), H2. unfold enabled_count. rewrite filter_app, app_length. lia.
Qed.

Lemma revise_loop_spec : forall n i d, inv i d -> 1 <= i -> i + n = length d ->
  match revise_loop St eq_dec univ guard adds dels n i d with
  | Some d2 => inv (i + n) d2 /\ length d2 = length d
  | None => exists s, dead s /\ ~ added s /\ cnt newc s = 0
  end.
Proof.
  induction n as [|n IH]; intros i d I Hi L; cbn [revise_loop].
  - rewrite Nat.add_0_r. auto.
  - pose proof (revise_step i d I Hi) as ST. cbv zeta in ST. specialize (ST ltac:(lia)).
    destruct (revise_dels _ _ _ _ _ _ _ _) as [d2|]; auto. destruct ST as [I2 L2].
    specialize (IH (S i) d2 I2 ltac:(lia) ltac:(lia)).
    replace (i + S n) with (S i + n) by lia.
    destruct (revise_loop _ _ _ _ _ _ _ _ _); auto. destruct IH. split; auto. congruence.
Qed.

Theorem revise_exact : forall d, ranking St guard dead cands d ->
  match revise_deadlocks St eq_dec univ guard adds dels d with
  | Some d2 => ranking St guard (fun s => dead s /\ ~ added s) newc d2 /\ length d2 = length d
  | None => exists s, dead s /\ ~ added s /\ cnt newc s = 0
  end.
Proof.
  intros d RK. unfold revise_deadlocks.
  destruct d as [|x d].
  - cbn. split; auto.
    assert (NDd : forall s, ~ dead s).
    { intros s Hs. destruct RK as [H1 _ _]. pose proof (proj2 (H1 (cnt cands s) s) (conj Hs eq_refl)) as C.
      destruct (cnt cands s); discriminate. }
    assert (N : forall i, nth i [] dl0 = dl0) by (intros [|]; reflexivity).
    split; intros i; rewrite N; cbn.
    + intros s. split; [discriminate|]. intros [[C _] _]. exfalso. eapply NDd, C.
    + intros a. split; [tauto|]. intros (_ & s & (C & _) & _). eapply NDd, C.
    + constructor.
  - pose proof (revise_loop_spec (length (x :: d) - 1) 1 (x :: d) (inv_start _ RK) (le_n 1)) as P.
    assert (Q : 1 + (length (x :: d) - 1) = length (x :: d)) by (cbn; lia).
    specialize (P Q). rewrite Q in P.
    destruct (revise_loop _ _ _ _ _ _ _ _ _) as [d2|]; auto. destruct P as [(I1 & I2 & I3 & I4 & I5) L].
    split; auto.
    assert (B : forall s, dead s -> cnt cands s < length (x :: d)).
    { intros s Hs. destruct RK as [H1 _ _]. pose proof (proj2 (H1 (cnt cands s) s) (conj Hs eq_refl)) as C.
      destruct (Nat.lt_ge_cases (cnt cands s) (length (x :: d))); auto.
      rewrite nth_overflow in C by auto. discriminate. }
    split.
    + intros k s. change (R d2 k s = true <-> (dead s /\ ~ added s) /\ cnt newc s = k).
      destruct (Nat.lt_ge_cases k (length (x :: d))).
      * rewrite I3 by auto. pose proof (B s). tauto.
      * unfold RankProofs.R. rewrite nth_overflow by lia. split; [discriminate|].
        intros ((Hd & _) & Hc). apply B in Hd. pose proof (newc_le s). lia.
    + intros k a. change (In a (Cs d2 k) <-> In a newc /\ exists s, (dead s /\ ~ added s) /\ cnt newc s = k /\ guard a s = true).
      destruct (Nat.lt_ge_cases k (length (x :: d))).
      * rewrite I4 by auto. split; intros (Ha & s & H1); split; auto; exists s; pose proof (B s); tauto.
      * unfold RankProofs.Cs. rewrite nth_overflow by lia. split; [intros []|].
        intros (_ & s & (Hd & _) & Hc & _). apply B in Hd. pose proof (newc_le s). lia.
    + exact I5.
Qed.
End Revise.
