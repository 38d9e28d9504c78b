(** Actions that differ in random values, and the smallest set of candidates. *)
From Coq Require Import List Arith Bool Lia Sorted.
From Verif Require Import FinLib ReachModel ReachSpec StabModel RankModel RankSpec ConflictModel
  ActModel ActSpec ActProofs ActProps SearchModel SearchProofs3 PickModel PickSpec PickProofs PickProofs2 PickProofs3.
Import ListNotations.

Definition rnd (k : pcsymm) (j : nat) : bool := random_read_ck (nth j (accs k) acc0) || random_write_ck (nth j (accs k) acc0).
Definition zeroed (k : pcsymm) (l : list nat) (v : list nat) : list nat := fold_left (fun v j => if rnd k j then upd v j 0 else v) l v.
Lemma zeroed_length : forall k l v, length (zeroed k l v) = length v.
Proof. intros k l. induction l as [|j l IH]; intros v; cbn; auto. change (length (zeroed k l (if rnd k j then upd v j 0 else v)) = length v). rewrite IH. destruct (rnd k j); auto. apply upd_length. Qed.
Lemma zeroed_nth : forall k l v x, nth x (zeroed k l v) 0 = if existsb (Nat.eqb x) l && rnd k x then 0 else nth x v 0.
Proof.
  intros k l. induction l as [|j l IH]; intros v x; cbn [zeroed fold_left existsb]; auto. fold (zeroed k l (if rnd k j then upd v j 0 else v)). rewrite IH.
  destruct (existsb (Nat.eqb x) l) eqn:E; cbn [orb andb].
  - rewrite orb_true_r. cbn [andb]. destruct (rnd k x) eqn:R; auto. destruct (rnd k j) eqn:J; auto. destruct (Nat.eq_dec x j) as [->|N]; [congruence|]. apply nth_upd_other; auto.
  - rewrite orb_false_r. destruct (Nat.eqb_spec x j) as [->|N]; cbn [andb].
    + destruct (rnd k j) eqn:J; auto. destruct (Nat.lt_ge_cases j (length v)); [apply nth_upd_same; auto|]. rewrite nth_overflow; auto. rewrite upd_length. auto.
    + destruct (rnd k j); auto. apply nth_upd_other; auto.
Qed.
Lemma in_range : forall x k, x < k -> existsb (Nat.eqb x) (seq 0 k) = true.
Proof. intros x k H. apply existsb_exists. exists x. split; [apply in_seq; lia|apply Nat.eqb_refl]. Qed.
Lemma out_range : forall x k, k <= x -> existsb (Nat.eqb x) (seq 0 k) = false.
Proof. intros x k H. destruct (existsb _ _) eqn:E; auto. apply existsb_exists in E. destruct E as (y & Y & E). apply in_seq in Y. apply Nat.eqb_eq in E. lia. Qed.
Lemma rnd_iff : forall k x, rnd k x = false <-> a_type (nth x (accs k) acc0) <> RandomReadAccess /\ a_type (nth x (accs k) acc0) <> RandomWriteAccess.
Proof. intros k x. unfold rnd, random_read_ck, random_write_ck. destruct (a_type _); cbn; intuition congruence. Qed.

Lemma zeroed_values : forall k v, action_values k v -> action_values k (zeroed k (seq 0 (length (accs k))) v).
Proof.
  intros k v (A & B & C). split; [rewrite zeroed_length; auto|]. split.
  - intros i I. unfold tested. rewrite zeroed_nth. specialize (B i I). unfold tested in B. destruct (_ && _); lia.
  - intros i I W. unfold assigned. rewrite zeroed_nth, out_range by lia. apply (C i I W).
Qed.
Lemma zero_random_iff : forall net i j, i < actions_in net -> j < actions_in net -> (zero_random net i = zero_random net j <-> same_but_random net i j).
Proof.
  intros net i j HI HJ. destruct (C39_decode net i HI) as (A1 & A2 & _), (C39_decode net j HJ) as (B1 & B2 & _).
  unfold zero_random, same_but_random. cbv zeta. set (a := act_of net i) in *. set (b := act_of net j) in *.
  change (fold_left _ (seq 0 (length (accs (nth (act_pc a) net pc0)))) (vals a)) with (zeroed (nth (act_pc a) net pc0) (seq 0 (length (accs (nth (act_pc a) net pc0)))) (vals a)).
  change (fold_left _ (seq 0 (length (accs (nth (act_pc b) net pc0)))) (vals b)) with (zeroed (nth (act_pc b) net pc0) (seq 0 (length (accs (nth (act_pc b) net pc0)))) (vals b)).
  pose proof (zeroed_values _ _ A2) as ZA. pose proof (zeroed_values _ _ B2) as ZB.
  split.
  - intros E. destruct (C39_encode net {| act_pc := act_pc a; vals := zeroed (nth (act_pc a) net pc0) (seq 0 (length (accs (nth (act_pc a) net pc0)))) (vals a) |} A1 ZA) as (_ & E1).
    destruct (C39_encode net {| act_pc := act_pc b; vals := zeroed (nth (act_pc b) net pc0) (seq 0 (length (accs (nth (act_pc b) net pc0)))) (vals b) |} B1 ZB) as (_ & E2).
    rewrite E, E2 in E1. pose proof (f_equal act_pc E1) as P. pose proof (f_equal vals E1) as V. cbn [act_pc vals] in P, V. clear E E1 E2. clearbody a b. symmetry in P. rewrite <- P in *. set (k := nth (act_pc a) net pc0) in *. split; auto. split.
    + intros x X R1 R2. assert (R : rnd k x = false) by (apply rnd_iff; auto). apply (f_equal (fun v => nth x v 0)) in V. rewrite !zeroed_nth, R, andb_false_r in V. symmetry. exact V.
    + intros x X W. apply (f_equal (fun v => nth (length (accs k) + place k x) v 0)) in V. rewrite !zeroed_nth, out_range in V by lia. symmetry. exact V.
  - intros (P & T & W). rewrite <- P in *. set (k := nth (act_pc a) net pc0) in *. f_equal. f_equal.
    destruct A2 as (LA & _), B2 as (LB & _). apply list_ext_nth with (d := 0); [rewrite !zeroed_length; lia|].
    intros x X. rewrite zeroed_length in X. rewrite !zeroed_nth. destruct (Nat.lt_ge_cases x (length (accs k))) as [L|L].
    + rewrite in_range by auto. cbn [andb]. destruct (rnd k x) eqn:R; auto. apply rnd_iff in R. apply T; tauto.
    + rewrite out_range by auto. cbn [andb]. fold (nr k) in *. rewrite place_all in LA. destruct (wmap_nth k (x - nr k)) as (W1 & W2 & W3); [lia|].
      specialize (W (nth (x - nr k) (wmap k) 0) W1). unfold assigned in W. rewrite W3 in W. fold (nr k) in W. replace (nr k + (x - nr k)) with x in W by lia. apply W.
      apply writable_ck. exact W2.
Qed.

Section Each.
Variable net : list pcsymm.
Lemma each_first : forall cs seen a, StronglySorted lt cs -> In a (first_of_each net seen cs) ->
  ~ In (zero_random net a) seen /\ forall b, In b cs -> zero_random net b = zero_random net a -> a <= b.
Proof.
  induction cs as [|c cs IH]; intros seen a S A; cbn in A; [destruct A|]. inversion S as [|? ? S' F]; subst. destruct (smem (zero_random net c) seen) eqn:E.
  - destruct (IH seen a S' A) as (X & Y). split; auto. intros b [<-|B] Q; [|auto]. apply smem_in in E. exfalso. apply X. rewrite <- Q. auto.
  - destruct A as [<-|A].
    + split; [intros X; apply smem_in in X; congruence|]. intros b [<-|B] _; auto. apply (proj1 (Forall_forall _ _) F) in B. lia.
    + destruct (IH _ a S' A) as (X & Y). split; [intros Z; apply X, in_sadd; auto|]. intros b [<-|B] Q; [|auto]. exfalso. apply X, in_sadd. auto.
Qed.
Lemma each_all : forall cs seen b, In b cs -> In (zero_random net b) seen \/ exists a, In a (first_of_each net seen cs) /\ zero_random net a = zero_random net b.
Proof.
  induction cs as [|c cs IH]; intros seen b B; [destruct B|]. cbn. destruct (smem (zero_random net c) seen) eqn:E.
  - destruct B as [<-|B]; [left; apply smem_in; auto|auto].
  - destruct B as [<-|B]; [right; exists c; split; auto; left; auto|]. destruct (IH (sadd (zero_random net c) seen) b B) as [X|(a & A & Q)].
    + apply in_sadd in X. destruct X as [X|X]; auto. right. exists c. split; auto. left; auto.
    + right. exists a. split; auto. right; auto.
Qed.
End Each.

(** Without -pick-reach and niceness, the preferred candidates of an instance with the default method are its rank. *)
Lemma lite_rank : forall opt nice f p n pk, method opt = MRVLitePick -> pick_back_reach opt = false -> nicePolicy opt = NilNice -> part_rank p n <> [] ->
  exists cs, pick_action_candidates opt nice f (projT1 p) (projT2 p) n pk = Some cs /\ StronglySorted lt cs /\ forall a, In a cs <-> In a (part_rank p n).
Proof.
  intros opt nice f p n pk M NB NN NE. unfold pick_action_candidates, back_reach, bias. rewrite NB, NN, M. change (dl_cands _ (dl (projT1 p) (projT2 p) n)) with (part_rank p n).
  unfold best. assert (B : best_weight true (map (fun a => (0, a)) (part_rank p n)) = Some 0).
  { unfold best_weight. destruct (part_rank p n) as [|x l]; [congruence|]. cbn [map fold_left fst]. clear. induction l as [|y l IH]; cbn; auto. }
  rewrite B. eexists. split; [reflexivity|]. split; [apply saddl_sorted|]. intros a. rewrite in_saddl, in_map_iff. split.
  - intros ((w & b) & <- & X). apply filter_In in X. destruct X as (X & _). apply in_map_iff in X. destruct X as (c & E & C). injection E as <- <-. auto.
  - intros A. exists (0, a). split; auto. apply filter_In. split; auto. apply in_map_iff. exists a. auto.
Qed.
Lemma smallest : forall opt nice f mrv pk ps acc cs, mrv_candidates opt nice f mrv pk ps acc = Good cs ->
  (acc <> [] -> length cs <= length acc /\ cs <> []) /\
  (forall q t, In q ps -> full q -> part_rank q mrv <> [] -> mrv < length (ranks (projT2 q)) -> pick_action_candidates opt nice f (projT1 q) (projT2 q) mrv pk = Some t -> length cs <= length t) /\
  (cs = acc \/ exists q, In q ps /\ full q /\ part_rank q mrv <> [] /\ pick_action_candidates opt nice f (projT1 q) (projT2 q) mrv pk = Some cs).
Proof.
  intros opt nice f mrv pk. induction ps as [|p ps IH]; intros acc cs; cbn [mrv_candidates].
  - intros E. injection E as ->. split; auto. split; auto. intros q t [].
  - destruct (p_no_partial p || (length (ranks (projT2 p)) <=? mrv) || is_empty (part_rank p mrv)) eqn:SK.
    + intros E. destruct (IH acc cs E) as (A & B & C). split; auto. split.
      * intros q t [<-|Q] F NE L T; [|eauto]. exfalso. unfold full in F. rewrite F in SK. cbn [orb] in SK. apply orb_true_iff in SK. destruct SK as [SK|SK]; [apply Nat.leb_le in SK; lia|].
        apply not_empty in NE. congruence.
      * destruct C as [C|(q & Q & R)]; auto. right. exists q. split; auto. right; auto.
    + apply orb_false_iff in SK. destruct SK as (SK & S3). apply orb_false_iff in SK. destruct SK as (S1 & S2). apply not_empty in S3.
      destruct (pick_action_candidates _ _ _ (projT1 p) _ _ _) as [[|c t0]|] eqn:PC; try discriminate. set (acc' := if is_empty acc || (length (c :: t0) <? length acc) then c :: t0 else acc).
      intros E. destruct (IH acc' cs E) as (A & B & C).
      assert (AC : acc' <> [] /\ length acc' <= length (c :: t0) /\ (acc <> [] -> length acc' <= length acc)).
      { unfold acc'. destruct (is_empty acc) eqn:EA; cbn [orb]; [apply is_empty_nil in EA; subst; split; [discriminate|split; auto; congruence]|]. apply not_empty in EA.
        destruct (Nat.ltb_spec (length (c :: t0)) (length acc)); split; auto; try discriminate; split; auto; lia. }
      destruct AC as (AC1 & AC2 & AC3). destruct (A AC1) as (A1 & A2). split; [intros N; specialize (AC3 N); split; auto; lia|]. split.
      * intros q t [<-|Q] F NE L T; [|eauto]. rewrite PC in T. injection T as <-. lia.
      * destruct C as [->|(q & Q & R)]; [|right; exists q; split; auto; right; auto]. unfold acc'. destruct (is_empty acc || _); auto. right. exists p. split; [left; auto|]. split; auto.
Qed.
