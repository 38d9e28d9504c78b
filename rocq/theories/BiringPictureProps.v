(** C104: the pictures of local invariants of bidirectional rings. *)
From Coq Require Import List Arith Bool Lia.
From Verif Require Import Radix BiringModel BiringSpec BiringProofs BiringProofs2 BiringProps
  BiringEnumModel BiringEnumSpec BiringEnumProofs BiringEnumProofs2 BiringEnumProps BiringPairProofs BiringPairProps BiringPictureModel.
Import ListNotations.

Lemma elem_ck_iff : forall cache t, elem_ck cache t = true <-> In t cache.
Proof.
  intros cache (a & b). unfold elem_ck. rewrite existsb_exists. split.
  - intros ((x & y) & H1 & H2). apply andb_true_iff in H2. cbn in H2. rewrite !Nat.eqb_eq in H2. destruct H2 as (-> & ->). auto.
  - intros H. exists (a, b). split; auto. cbn. rewrite !Nat.eqb_refl. auto.
Qed.

Lemma members_view : forall M s e, length s = M * M * M -> In e (members s) ->
  exists a b d, a < M /\ b < M /\ d < M /\ e = place M (a, b, d) /\ pc_config_of_enum_idx M e = (a, b, d) /\ in_table M s (a, b, d).
Proof.
  intros M s e L H. apply members_in in H. pose proof (ck_bound _ _ H) as B. rewrite L in B. destruct (place_config M e B) as (V1 & V2).
  destruct (pc_config_of_enum_idx M e) as ((a & b) & d). destruct V1 as (Va & Vb & Vd). exists a, b, d.
  do 3 (split; [auto|]). split; auto. split; auto. rewrite <- V2 in H. exact H.
Qed.

Lemma from_spec : forall M s src a b d, length s = M * M * M -> a < M -> b < M -> d < M ->
  let l := arrows_from M src (continuations M (place M (a, b, d)) s) [] in
  (l = [] /\ ~ exists t, t < M /\ in_table M s (b, d, t)) \/ (l = [(src, (b, d))] /\ exists t, t < M /\ in_table M s (b, d, t)).
Proof.
  intros M s src a b d L Ha Hb Hd l.
  assert (C : forall f, In f (continuations M (place M (a, b, d)) s) <-> exists t, t < M /\ f = place M (b, d, t) /\ ck s f = true).
  { intros f. apply (step_iff M s (a, b, d) f). cbn. auto. }
  assert (N : forall conts cache, In (b, d) cache -> (forall f, In f conts -> exists t, t < M /\ f = place M (b, d, t)) -> arrows_from M src conts cache = []).
  { induction conts as [|f conts IH]; intros cache K H; cbn [arrows_from]; auto. destruct (H f) as (t & T1 & ->); [left; auto|].
    rewrite config_place by (cbn; auto). rewrite (proj2 (elem_ck_iff cache (b, d)) K). apply IH; auto. intros g Hg. apply H. right. auto. }
  unfold l. destruct (continuations M (place M (a, b, d)) s) as [|f conts].
  - left. split; auto. intros (t & T1 & T2). apply (C (place M (b, d, t))). exists t. auto.
  - right. destruct (proj1 (C f)) as (t & T1 & -> & T2); [left; auto|]. split; [|exists t; auto].
    cbn [arrows_from]. rewrite config_place by (cbn; auto). cbn [elem_ck existsb]. f_equal. apply N; [left; auto|].
    intros g Hg. destruct (proj1 (C g)) as (t' & T1' & T2' & _); [right; auto|]. exists t'. auto.
Qed.

(** The arrows: one from the pair of the first two values of a view to that of its
    last two, if the view is in the set and some view can follow.  Each is printed
    once, and both its ends are nodes. *)
Theorem C104_arrows : forall M s, length s = M * M * M ->
  (forall u v, In (u, v) (arrows M s) <->
     exists a b d t, a < M /\ b < M /\ d < M /\ t < M /\ u = (a, b) /\ v = (b, d) /\ in_table M s (a, b, d) /\ in_table M s (b, d, t)) /\
  NoDup (arrows M s) /\
  forall u v, In (u, v) (arrows M s) -> In u (nodes M s) /\ In v (nodes M s).
Proof.
  intros M s L.
  assert (A : forall u v, In (u, v) (arrows M s) <->
     exists a b d t, a < M /\ b < M /\ d < M /\ t < M /\ u = (a, b) /\ v = (b, d) /\ in_table M s (a, b, d) /\ in_table M s (b, d, t)).
  { intros u v. unfold arrows. rewrite in_flat_map. split.
    - intros (e & He & K). destruct (members_view M s e L He) as (a & b & d & Ha & Hb & Hd & -> & Ec & T). rewrite Ec in K.
      destruct (from_spec M s (a, b) a b d L Ha Hb Hd) as [(E & _)|(E & t & T1 & T2)]; rewrite E in K; [destruct K|].
      destruct K as [K|[]]. injection K as <- <-. exists a, b, d, t. auto 10.
    - intros (a & b & d & t & Ha & Hb & Hd & Ht & -> & -> & K1 & K2). exists (place M (a, b, d)). split; [apply members_in; exact K1|].
      rewrite config_place by (cbn; auto). destruct (from_spec M s (a, b) a b d L Ha Hb Hd) as [(_ & N)|(E & _)].
      + exfalso. apply N. exists t. auto.
      + rewrite E. left. auto. }
  split; [exact A|]. split.
  - unfold arrows. assert (I : forall e, In e (members s) -> In e (members s)) by auto. pose proof (members_nodup s) as ND. revert I ND.
    generalize (members s) at 1 3 4 as l. induction l as [|e l IH]; intros I ND; cbn [flat_map]; [constructor|].
    inversion ND as [|? ? N1 N2]; subst. destruct (members_view M s e L (I e (or_introl eq_refl))) as (a & b & d & Ha & Hb & Hd & -> & Ec & T).
    rewrite Ec. assert (NDl : NoDup (flat_map (fun e => let '(a, b, _) := pc_config_of_enum_idx M e in arrows_from M (a, b) (continuations M e s) []) l))
      by (apply IH; auto; intros e He; apply I; right; auto).
    destruct (from_spec M s (a, b) a b d L Ha Hb Hd) as [(E & _)|(E & _)]; rewrite E; [exact NDl|]. cbn [app]. constructor; auto.
    intros K. apply in_flat_map in K. destruct K as (e' & He' & K).
    destruct (members_view M s e' L (I e' (or_intror He'))) as (a' & b' & d' & Ha' & Hb' & Hd' & -> & Ec' & T'). rewrite Ec' in K.
    destruct (from_spec M s (a', b') a' b' d' L Ha' Hb' Hd') as [(E' & _)|(E' & _)]; rewrite E' in K; [destruct K|].
    destruct K as [K|[]]. assert (E3 : (a', b', d') = (a, b, d)) by congruence. rewrite E3 in He'. contradiction.
  - intros u v H. apply A in H. destruct H as (a & b & d & t & Ha & Hb & Hd & Ht & -> & -> & K1 & K2). unfold nodes. split; apply in_map_iff.
    + exists (place M (a, b, d)). rewrite config_place by (cbn; auto). split; auto. apply members_in. exact K1.
    + exists (place M (b, d, t)). rewrite config_place by (cbn; auto). split; auto. apply members_in. exact K2.
Qed.
Print Assumptions C104_arrows.

Lemma ring_next : forall n i, i < n -> ((i + 1) mod n + n - 1) mod n = i.
Proof.
  intros n i Hi. destruct (Nat.eq_dec (i + 1) n) as [Q|Q].
  - rewrite Q, Nat.mod_same by lia. replace (0 + n - 1) with i by lia. apply Nat.mod_small. auto.
  - rewrite (Nat.mod_small (i + 1)) by lia. replace (i + 1 + n - 1) with (i + 1 * n) by lia. rewrite Nat.mod_add by lia.
    apply Nat.mod_small. auto.
Qed.

(** The legitimate states of a ring are exactly the closed walks of its size in the picture. *)
Theorem C104_states : forall M s n x, length s = M * M * M -> 1 <= n -> (forall i, i < n -> x i < M) ->
  (legit_ring M (in_table M s) n x <->
   forall i, i < n -> In ((x ((i + n - 1) mod n), x i), (x i, x ((i + 1) mod n))) (arrows M s)).
Proof.
  intros M s n x L Hn Hx. destruct (C104_arrows M s L) as (A & _). split.
  - intros (_ & _ & H) i Hi. apply A.
    assert (B0 : (i + n - 1) mod n < n) by (apply Nat.mod_upper_bound; lia).
    assert (B1 : (i + 1) mod n < n) by (apply Nat.mod_upper_bound; lia).
    assert (B2 : ((i + 1) mod n + 1) mod n < n) by (apply Nat.mod_upper_bound; lia).
    pose proof (H i Hi) as K. pose proof (H _ B1) as K'. unfold view in *. rewrite (ring_next n i Hi) in K'.
    exists (x ((i + n - 1) mod n)), (x i), (x ((i + 1) mod n)), (x (((i + 1) mod n + 1) mod n)). auto 12.
  - intros H. split; auto. split; auto. intros i Hi. apply H in Hi. apply A in Hi.
    destruct Hi as (a & b & d & t & _ & _ & _ & _ & E1 & E2 & K & _). injection E1 as E1 E1'. injection E2 as E2 E2'.
    unfold view. rewrite E1, E1', E2'. exact K.
Qed.
Print Assumptions C104_states.

(** With the option of pairs: one arrow for each pair of first two values, and for sets
    given by pairs the legitimate states are the closed walks. *)
Theorem C104_pair_arrows : forall M s, length s = M * M * M ->
  NoDup (pair_arrows M s) /\
  forall a b, In (a, b) (pair_arrows M s) <-> a < M /\ b < M /\ exists d, d < M /\ in_table M s (a, b, d).
Proof.
  intros M s L.
  assert (X : forall idxs cache, (forall e, In e idxs -> In e (members s)) ->
    NoDup (pair_arrows_loop M idxs cache) /\
    forall a b, In (a, b) (pair_arrows_loop M idxs cache) <-> ~ In (a, b) cache /\ exists d, a < M /\ b < M /\ d < M /\ In (place M (a, b, d)) idxs).
  { induction idxs as [|e idxs IH]; intros cache I; cbn [pair_arrows_loop].
    - split; [constructor|]. intros a b. split; [intros []|]. intros (_ & d & _ & _ & _ & []).
    - destruct (members_view M s e L (I e (or_introl eq_refl))) as (a0 & b0 & d0 & Ha & Hb & Hd & -> & -> & T).
      assert (I' : forall e, In e idxs -> In e (members s)) by (intros e He; apply I; right; auto).
      assert (Un : forall a b d, a < M -> b < M -> d < M -> place M (a0, b0, d0) = place M (a, b, d) -> (a, b) = (a0, b0)).
      { intros a b d H1 H2 H3 E. apply place_inj in E; [congruence|cbn; auto|cbn; auto]. }
      destruct (elem_ck cache (a0, b0)) eqn:C.
      + apply elem_ck_iff in C. destruct (IH cache I') as (N & J). split; auto. intros a b. rewrite J. split; intros (H1 & d & H2 & H3 & H4 & H5); (split; [auto|]).
        * exists d. repeat split; auto. right. auto.
        * destruct H5 as [H5|H5]; [|exists d; auto]. apply Un in H5; auto. rewrite H5 in H1. contradiction.
      + assert (C' : ~ In (a0, b0) cache) by (intros K; apply elem_ck_iff in K; congruence).
        destruct (IH ((a0, b0) :: cache) I') as (N & J). split.
        * constructor; auto. intros K. apply J in K. destruct K as (K & _). apply K. left. auto.
        * intros a b. split.
          -- intros [K|K].
             ++ injection K as <- <-. split; auto. exists d0. split; auto. split; auto. split; auto. left. auto.
             ++ apply J in K. destruct K as (H1 & d & H2 & H3 & H4 & H5). split; [intros Z; apply H1; right; auto|]. exists d. split; auto. split; auto. split; auto. right. auto.
          -- intros (H1 & d & H2 & H3 & H4 & H5). destruct (Nat.eq_dec a a0) as [Ea|Ea]; [destruct (Nat.eq_dec b b0) as [Eb|Eb]|].
             ++ left. congruence.
             ++ right. apply J. split; [intros [Z|Z]; [congruence|auto]|]. exists d. split; auto. split; auto. split; auto.
                destruct H5 as [H5|H5]; auto. apply Un in H5; auto. congruence.
             ++ right. apply J. split; [intros [Z|Z]; [congruence|auto]|]. exists d. split; auto. split; auto. split; auto.
                destruct H5 as [H5|H5]; auto. apply Un in H5; auto. congruence. }
  destruct (X (members s) [] (fun e H => H)) as (N & J). split; [exact N|]. intros a b. unfold pair_arrows. rewrite J. split.
  - intros (_ & d & H1 & H2 & H3 & H4). split; auto. split; auto. exists d. split; auto. apply members_in in H4. exact H4.
  - intros (H1 & H2 & d & H3 & H4). split; [intros []|]. exists d. split; auto. split; auto. split; auto. apply members_in. exact H4.
Qed.
Print Assumptions C104_pair_arrows.

Theorem C104_pair_states : forall M s n x, length s = M * M * M -> by_pairs M (in_table M s) -> 1 <= n -> (forall i, i < n -> x i < M) ->
  (legit_ring M (in_table M s) n x <-> forall i, i < n -> In (x ((i + n - 1) mod n), x i) (pair_arrows M s)).
Proof.
  intros M s n x L (P & BP) Hn Hx. destruct (C104_pair_arrows M s L) as (_ & A).
  assert (B0 : forall i, (i + n - 1) mod n < n) by (intros; apply Nat.mod_upper_bound; lia).
  assert (B1 : forall i, (i + 1) mod n < n) by (intros; apply Nat.mod_upper_bound; lia).
  split.
  - intros (_ & _ & H) i Hi. apply A. split; auto. split; auto. exists (x ((i + 1) mod n)). split; auto. apply (H i Hi).
  - intros H. split; auto. split; auto. intros i Hi. pose proof (H i Hi) as K. pose proof (H _ (B1 i)) as K'. rewrite (ring_next n i Hi) in K'.
    apply A in K, K'. destruct K as (_ & _ & d & D1 & D2), K' as (_ & _ & d' & D1' & D2'). apply BP in D2, D2'; auto.
    unfold view. apply BP; auto. tauto.
Qed.
Print Assumptions C104_pair_states.

(** The set of the example of C101, and the set of all pairs but (1,1). *)
Theorem C104_example :
  let s := tab [(0,0,1); (0,1,0); (1,0,0); (1,0,1)] in
  arrows 2 s = [((0,0),(0,1)); ((1,0),(0,0)); ((1,0),(0,1)); ((0,1),(1,0))] /\
  nodes 2 s = [(0,0); (1,0); (1,0); (0,1)] /\
  pair_arrows 2 (tab [(0,0,0); (0,0,1); (0,1,0); (1,0,0); (1,0,1)]) = [(0,0); (1,0); (0,1)] /\
  by_pairs 2 (in_table 2 (tab [(0,0,0); (0,0,1); (0,1,0); (1,0,0); (1,0,1)])).
Proof.
  split; [vm_compute; reflexivity|]. split; [vm_compute; reflexivity|]. split; [vm_compute; reflexivity|].
  exists (fun a b => a = 0 \/ b = 0). intros a b d Ha Hb Hd.
  destruct a as [|[|a]], b as [|[|b]], d as [|[|d]]; try lia; vm_compute; split; intros; try tauto; try discriminate; intuition discriminate.
Qed.
Print Assumptions C104_example.
