(** Proofs about the ranking of states and actions by distance. *)
From Coq Require Import List Arith Bool Lia.
From Verif Require Import FinLib ReachModel ReachSpec ReachProofs RankModel RankSpec.
Import ListNotations.

Section Layers.
Variable St : Type.
Variable eq_dec : forall x y : St, {x = y} + {x <> y}.
Variable univ : list St.
Hypothesis full : forall s, In s univ.
Variable xn : St -> St -> bool.
Variable legit : St -> bool.

Notation pred := (St -> bool).
Notation sat := (sat St univ).
Notation por := (por St eq_dec univ).
Notation pminus := (pminus St eq_dec univ).
Notation pre := (pre St eq_dec univ).
Notation img := (img St eq_dec univ).
Notation pfalse := (pfalse St).
Let POR := por_spec St eq_dec univ full.
Let PMINUS := pminus_spec St eq_dec univ full.
Let R (s t : St) : Prop := xn s t = true.
Let L (s : St) : Prop := legit s = true.
Notation dist := (distance St R L).

(** Legitimate states can be reached in fewer than [k] steps. *)
Definition within (k : nat) (s : St) : Prop := exists m t, m < k /\ L t /\ steps St R m s t.

Lemma dist_iff : forall s k, dist s k <-> (exists t, L t /\ steps St R k s t) /\ ~ within k s.
Proof.
  intros s k. unfold distance. split; intros [H1 H2]; split; auto.
  - intros (m & t & A & B & C). apply (H2 m t); auto.
  - intros m t A B C. apply H2. exists m, t. auto.
Qed.

Lemma layer_loop_spec : forall fuel layers visit layer,
  layers <> [] ->
  (forall s, visit s = true <-> within (length layers) s) ->
  (forall s, layer s = true <-> dist s (length layers)) ->
  (forall j s, j < length layers -> nth j (rev layers) pfalse s = true <-> dist s j) ->
  (forall j, 1 <= j < length layers -> exists s, dist s j) ->
  length univ < fuel + cnt St univ visit ->
  exists ls v, layer_loop St eq_dec univ fuel xn layers visit layer = Some (ls, v) /\
    ls <> [] /\
    (forall s, v s = true <-> exists n, dist s n) /\
    (forall j s, nth j ls pfalse s = true <-> dist s j) /\
    (forall j, 1 <= j < length ls -> exists s, dist s j).
Proof.
  induction fuel as [|fuel IH]; intros layers visit layer Ne HV HL HN HE HF.
  { pose proof (cnt_N St univ visit). cbn in HF. lia. }
  cbn [layer_loop]. set (k := length layers) in *.
  destruct (sat layer) eqn:Sa.
  - assert (V' : forall s, por visit layer s = true <-> within (S k) s).
    { intros s. rewrite POR, orb_true_iff. split.
      - intros [H|H].
        + apply HV in H. destruct H as (m & t & A & B & C). exists m, t. split; [lia|auto].
        + apply HL, dist_iff in H. destruct H as [(t & A & B) _]. exists k, t. auto.
      - intros (m & t & A & B & C). destruct (visit s) eqn:V; auto. right.
        apply HL, dist_iff. assert (NW : ~ within k s) by (intros W; apply HV in W; congruence).
        split; auto. exists t. split; auto.
        assert (m = k); [|subst; auto]. destruct (Nat.eq_dec m k); auto.
        exfalso. apply NW. exists m, t. split; [lia|auto]. }
    apply IH.
    + discriminate.
    + exact V'.
    + intros s. cbn [length]. fold k. rewrite PMINUS, andb_true_iff, negb_true_iff, <- not_true_iff_false, V'.
      rewrite (pre_spec St eq_dec univ full). rewrite dist_iff. split.
      * intros [(u & A & B) C]. split; auto. apply HL, dist_iff in B. destruct B as [(t & B1 & B2) _].
        exists t. split; auto. apply steps_S. exists u. auto.
      * intros [(t & A & B) C]. split; auto. apply steps_S in B. destruct B as (u & B1 & B2).
        exists u. split; auto. apply HL, dist_iff. split; [exists t; auto|].
        intros (m & t' & D1 & D2 & D3). apply C. exists (S m), t'. split; [lia|]. split; auto.
        apply steps_S. exists u. auto.
    + intros j s Hj. cbn [length] in Hj. fold k in Hj. cbn [rev].
      destruct (Nat.eq_dec j k) as [->|N].
      * rewrite app_nth2 by (rewrite rev_length; unfold k; lia). rewrite rev_length. unfold k.
        rewrite Nat.sub_diag. cbn. apply HL.
      * rewrite app_nth1 by (rewrite rev_length; fold k; lia). apply HN. lia.
    + intros j Hj. cbn [length] in Hj. fold k in Hj. destruct (Nat.eq_dec j k) as [->|N].
      * apply sat_spec in Sa; auto. destruct Sa as [s Hs]. exists s. apply HL, Hs.
      * apply HE. lia.
    + apply sat_spec in Sa; auto. destruct Sa as [s Hs].
      assert (cnt St univ visit < cnt St univ (por visit layer)); [|lia].
      apply cnt_lt with (s := s); auto.
      * intros t Ht. rewrite POR, Ht. reflexivity.
      * destruct (visit s) eqn:V; auto. exfalso. apply HV in V. apply HL, dist_iff in Hs. tauto.
      * rewrite POR, Hs, orb_true_r. reflexivity.
  - pose proof (proj1 (sat_false St univ full layer) Sa) as Z.
    assert (FAR : forall n s, k <= n -> ~ dist s n).
    { intros n. induction n as [|n IHn]; intros s Hn Hd.
      - assert (k = 0) by lia. unfold k in *. destruct layers; [congruence|discriminate].
      - destruct (Nat.eq_dec k (S n)) as [E|E].
        + rewrite <- E in Hd. apply HL in Hd. rewrite Z in Hd. discriminate.
        + destruct Hd as [(t & A & B) C]. apply steps_S in B. destruct B as (u & B1 & B2).
          apply (IHn u); [lia|]. split; [exists t; auto|]. intros m t' D1 D2 D3.
          apply (C (S m) t'); auto; [lia|]. apply steps_S. exists u. auto. }
    exists (rev layers), visit. split; auto. split.
    { intros E. apply (f_equal (@length _)) in E. rewrite rev_length in E. destruct layers; [congruence|discriminate]. }
    split; [|split].
    + intros s. rewrite HV. split.
      * intros (m & t & A & B & C). revert s t B C. induction m as [m IHm] using lt_wf_ind.
        intros s t B C. destruct (visit s) eqn:V.
        2:{ assert (W : within k s) by (exists m, t; auto). apply HV in W. congruence. }
        assert (DN : nth m (rev layers) pfalse s = true \/ nth m (rev layers) pfalse s = false)
          by (destruct (nth m (rev layers) pfalse s); auto).
        destruct DN as [DN|DN]; [exists m; apply HN; auto|].
        assert (ND : ~ dist s m) by (intros X; apply HN in X; auto; congruence).
        (* a shorter path exists *)
        assert (X : exists m' t', m' < m /\ L t' /\ steps St R m' s t').
        { clear IHm DN V. destruct (existsb (fun j => nth j (rev layers) pfalse s) (seq 0 m)) eqn:EX.
          - apply existsb_exists in EX. destruct EX as (j & Hj & Dj). apply in_seq in Hj.
            apply HN in Dj; [|lia]. destruct Dj as [(t' & P & Q) _]. exists j, t'. split; auto. lia.
          - exfalso.
            assert (NOJ : forall j, j < m -> ~ dist s j).
            { intros j Hj Dj. apply HN in Dj; [|lia].
              assert (true = false); [|discriminate]. rewrite <- EX. symmetry.
              apply existsb_exists. exists j. split; auto. apply in_seq. lia. }
            assert (NST : forall j, j <= m -> ~ within j s).
            { induction j as [|j IHj]; intros Hj (a & b & P & Q & T); [lia|].
              destruct (Nat.eq_dec a j) as [->|]; [|apply IHj; [lia|exists a, b; repeat split; auto; lia]].
              apply (NOJ j); [lia|]. apply dist_iff. split; [exists b; auto|]. apply IHj. lia. }
            apply ND. apply dist_iff. split; [exists t; auto|]. apply NST. auto. }
        destruct X as (m' & t' & X1 & X2 & X3). apply (IHm m' X1 ltac:(lia) s t' X2 X3).
      * intros (n & Hd). destruct (Nat.lt_ge_cases n k) as [Hn|Hn].
        -- destruct Hd as [(t & A & B) _]. exists n, t. auto.
        -- exfalso. apply (FAR n s); auto.
    + intros j s. destruct (Nat.lt_ge_cases j k) as [Hj|Hj]; [apply HN; auto|].
      rewrite nth_overflow by (rewrite rev_length; fold k; lia). split; [discriminate|].
      intros C. exfalso. apply (FAR j s); auto.
    + intros j Hj. rewrite rev_length in Hj. apply HE. exact Hj.
Qed.

Theorem rank_states_exact : forall fuel, length univ < fuel ->
  exists layers ok, rank_states St eq_dec univ fuel xn legit = Some (layers, ok) /\
    layers <> [] /\
    (forall i s, nth i layers pfalse s = true <-> dist s i) /\
    (forall i, 1 <= i < length layers -> exists s, dist s i) /\
    (ok = true <-> forall s, exists t, L t /\ reaches St R s t).
Proof.
  intros fuel HF. unfold rank_states.
  destruct (layer_loop_spec fuel [legit] legit (pminus (pre xn legit) legit)) as (ls & v & E & A1 & A2 & A3 & A4).
  - discriminate.
  - intros s. cbn [length]. split.
    + intros H. exists 0, s. split; auto. split; auto. apply steps_0. reflexivity.
    + intros (m & t & A & B & C). replace m with 0 in C by lia. apply steps_0 in C. subst. exact B.
  - intros s. cbn [length]. rewrite PMINUS, andb_true_iff, negb_true_iff, (pre_spec St eq_dec univ full), dist_iff.
    split.
    + intros [(t & A & B) C]. split.
      * exists t. split; auto. apply steps_one. exact A.
      * intros (m & u & P & Q & T). replace m with 0 in T by lia. apply steps_0 in T. subst. unfold L in Q. congruence.
    + intros [(t & A & B) C]. split.
      * apply steps_S in B. destruct B as (u & B1 & B2). apply steps_0 in B2. subst. exists t. auto.
      * destruct (legit s) eqn:E; auto. exfalso. apply C. exists 0, s. split; auto. split; auto.
        apply steps_0. reflexivity.
  - intros j s Hj. cbn in Hj. replace j with 0 by lia. cbn. rewrite dist_iff. split.
    + intros H. split; [exists s; split; auto; apply steps_0; reflexivity|]. intros (m & t & P & _). lia.
    + intros [(t & A & B) _]. apply steps_0 in B. subst. exact A.
  - intros j Hj. cbn in Hj. lia.
  - lia.
  - rewrite E. exists ls, (taut St univ v). split; auto. split; auto. split; auto. split; auto.
    rewrite (taut_spec St univ full). split.
    + intros H s. specialize (H s). apply A2 in H. destruct H as (n & (t & P & Q) & _).
      exists t. split; auto. exists n. exact Q.
    + intros H s. apply A2. destruct (v s) eqn:V; [apply A2, V|]. exfalso.
      destruct (H s) as (t & P & n & Q). revert s t P Q V. induction n as [n IHn] using lt_wf_ind.
      intros s t P Q V. assert (ND : ~ dist s n) by (intros X; assert (v s = true) by (apply A2; exists n; exact X); congruence).
      apply ND. split; [exists t; auto|]. intros m t' M1 M2 M3. apply (IHn m M1 s t'); auto.
Qed.

Lemma action_layer_spec : forall act (layers : list pred) n j, j + n = length layers -> 1 <= j ->
  let step k := exists s t, nth k layers pfalse s = true /\ act s t = true /\ nth (k - 1) layers pfalse t = true in
  let r := action_layer St eq_dec univ act layers n j in
  (j <= r <= length layers) /\
  (r < length layers -> step r) /\
  (forall k, j <= k -> k < r -> ~ step k).
Proof.
  intros act layers. induction n as [|n IH]; intros j E Hj; cbn [action_layer].
  - cbv zeta. split; [lia|]. split; lia.
  - cbv zeta.
    assert (O : overlap St univ (img act (nth j layers pfalse)) (nth (j - 1) layers pfalse) = true <->
      exists s t, nth j layers pfalse s = true /\ act s t = true /\ nth (j - 1) layers pfalse t = true).
    { rewrite (overlap_spec St univ full). split.
      - intros (t & A & B). apply (img_spec St eq_dec univ full) in A. destruct A as (s & A1 & A2). exists s, t. auto.
      - intros (s & t & A & B & C). exists t. split; auto. apply (img_spec St eq_dec univ full). exists s. auto. }
    destruct (overlap _ _ _ _).
    + split; [lia|]. split; [intros _; apply O; reflexivity|]. lia.
    + destruct (IH (S j)) as (I1 & I2 & I3); try lia. split; [lia|]. split; auto.
      intros k H1 H2 H3. destruct (Nat.eq_dec k j) as [->|N].
      * apply O in H3. discriminate.
      * apply (I3 k); auto. lia.
Qed.
End Layers.
