(** C101: the local views of bidirectional rings (biring.cc). *)
From Coq Require Import List Arith Bool Lia.
From Verif Require Import Radix BiringModel BiringSpec BiringProofs BiringProofs2 BiringProofs3.
Import ListNotations.

(** Removing the useless views keeps exactly the views which some legitimate state
    of some ring has.  The search always ends. *)
Theorem C101_fixpoint : forall M s, length s = M * M * M ->
  exists s', biring_fixpoint M s = Some s' /\ length s' = length s /\
    forall a b d, a < M -> b < M -> d < M ->
      (in_table M s' (a, b, d) <-> occurs M (in_table M s) (a, b, d)).
Proof.
  intros M s L. destruct (biring_fixpoint_spec M s) as (s' & E & L' & F & _). exists s'. split; auto. split; auto.
  intros a b d Ha Hb Hd. change (in_table M s' (a, b, d)) with (ck s' (place M (a, b, d)) = true). rewrite F. split.
  - intros (k & W). destruct (walk_ring M s L (S k) _ ltac:(lia) W) as (x & X1 & X2).
    exists (S k), x, 0. split; auto. split; [lia|]. rewrite X2. apply config_place. cbn. auto.
  - intros (n & x & i & X1 & X2 & X3). pose proof (ring_walk M s L n x i X1 X2) as W. rewrite X3 in W.
    destruct n as [|n]; [lia|]. exists n. exact W.
Qed.
Print Assumptions C101_fixpoint.

(** It changes the legitimate states of no ring. *)
Theorem C101_same_states : forall M s s' n x, length s = M * M * M -> biring_fixpoint M s = Some s' ->
  (legit_ring M (in_table M s') n x <-> legit_ring M (in_table M s) n x).
Proof.
  intros M s s' n x L E. destruct (C101_fixpoint M s L) as (s2 & E2 & L2 & F). assert (s2 = s') by congruence. subst s2.
  assert (B : 1 <= n -> (forall i, i < n -> x i < M) -> forall i, x (i mod n) < M).
  { intros Hn H i. apply H. apply Nat.mod_upper_bound. lia. }
  split; intros H; pose proof H as (H1 & H2 & H3); (split; [auto|split; [auto|]]); intros i Hi; pose proof (B H1 H2) as Bx.
  - specialize (H3 i Hi). unfold view in *. apply F in H3; auto. destruct H3 as (m & y & j & (Y1 & Y2 & Y3) & Y4 & Y5).
    rewrite <- Y5. apply Y3. auto.
  - unfold view. apply F; auto. exists n, x, i. auto.
Qed.
Print Assumptions C101_same_states.

Lemma satisfiable_walk : forall M s n, length s = M * M * M -> 1 <= n ->
  (satisfiable M (in_table M s) n <-> exists e, walk M s n e e).
Proof.
  intros M s n L Hn. split.
  - intros (x & X). exists (place M (view n x 0)). apply ring_walk; auto; lia.
  - intros (e & W). destruct (walk_ring M s L n e Hn W) as (x & X & _). exists x. auto.
Qed.

(** With a least size the answer is yes exactly if every ring of at least that
    size has a legitimate state. *)
Theorem C101_sizes : forall M s fuel N0, length s = M * M * M -> 2 ^ (M * M * M) < fuel -> 1 <= N0 ->
  exists b, biring_sat_ck M fuel s N0 = Some b /\
    (b = true <-> forall n, N0 <= n -> satisfiable M (in_table M s) n).
Proof.
  intros M s fuel N0 L Hf H0. rewrite <- L in Hf. destruct (biring_sat_ck_spec M s fuel N0 Hf) as (b & E & Hb).
  exists b. split; auto. rewrite Hb. destruct (Nat.eqb_spec N0 0); [lia|].
  split; intros H m Hm; specialize (H m Hm); apply satisfiable_walk; auto; lia.
Qed.
Print Assumptions C101_sizes.

(** Without one the answer is yes exactly if all large rings have one. *)
Theorem C101_large : forall M s fuel, length s = M * M * M -> 2 ^ (M * M * M) < fuel ->
  exists b, biring_sat_ck M fuel s 0 = Some b /\
    (b = true <-> exists N, forall n, N <= n -> 1 <= n -> satisfiable M (in_table M s) n).
Proof.
  intros M s fuel L Hf. rewrite <- L in Hf. destruct (biring_sat_ck_spec M s fuel 0 Hf) as (b & E & Hb).
  exists b. split; auto. rewrite Hb. cbn [Nat.eqb]. split.
  - intros (N & H). exists N. intros m Hm H1. apply satisfiable_walk; auto.
  - intros (N & H). exists (S N). intros m Hm. apply satisfiable_walk; auto; [lia|]. apply H; lia.
Qed.
Print Assumptions C101_large.

(** The lookup for one view: yes exactly if the view occurs. *)
Theorem C101_view : forall M s a b d, length s = M * M * M -> a < M -> b < M -> d < M -> in_table M s (a, b, d) ->
  exists r, legit_enum_idx M s (place M (a, b, d)) = Some r /\
    (r = true <-> occurs M (in_table M s) (a, b, d)).
Proof.
  intros M s a b d L Ha Hb Hd H. destruct (legit_enum_idx_spec M s (place M (a, b, d)) H) as (r & E & Hr).
  exists r. split; auto. rewrite Hr. split.
  - intros (k & W). destruct (walk_ring M s L (S k) _ ltac:(lia) W) as (x & X1 & X2).
    exists (S k), x, 0. split; auto. split; [lia|]. rewrite X2. apply config_place. cbn. auto.
  - intros (n & x & i & X1 & X2 & X3). pose proof (ring_walk M s L n x i X1 X2) as W. rewrite X3 in W.
    destruct n as [|n]; [lia|]. exists n. exact W.
Qed.
Print Assumptions C101_view.

(** The subset of views which the sizes are asked of may be the cut table: the
    answers are the same. *)
Theorem C101_cut_first : forall M s s' fuel N0, length s = M * M * M -> 2 ^ (M * M * M) < fuel ->
  biring_fixpoint M s = Some s' -> biring_sat_ck M fuel s' N0 = biring_sat_ck M fuel s N0.
Proof.
  intros M s s' fuel N0 L Hf E. destruct (C101_fixpoint M s L) as (s2 & E2 & L2 & _). assert (s2 = s') by congruence. subst s2.
  assert (L' : length s' = M * M * M) by congruence.
  assert (T : forall n, satisfiable M (in_table M s') n <-> satisfiable M (in_table M s) n).
  { intros n. split; intros (x & X); exists x; apply (C101_same_states M s s' n x L E); auto. }
  destruct N0 as [|N0].
  - destruct (C101_large M s fuel L Hf) as (b & -> & B). destruct (C101_large M s' fuel L' Hf) as (b' & -> & B').
    f_equal. apply eq_true_iff_eq. rewrite B, B'.
    split; intros (N & H); exists N; intros m H1 H2; apply T; auto.
  - destruct (C101_sizes M s fuel (S N0) L Hf ltac:(lia)) as (b & -> & B).
    destruct (C101_sizes M s' fuel (S N0) L' Hf ltac:(lia)) as (b' & -> & B').
    f_equal. apply eq_true_iff_eq. rewrite B, B'. split; intros H m H1; apply T; auto.
Qed.
Print Assumptions C101_cut_first.

(** local_propagation_syn says yes exactly if the process of every view outside of
    the table can take a value with which its view is in the table, or with which
    its view, were it added to the table, would occur in no ring. *)
Theorem C101_propagation : forall M s, length s = M * M * M ->
  exists r, local_propagation_syn M s = Some r /\
    (r = true <-> forall a b d, a < M -> b < M -> d < M -> ~ in_table M s (a, b, d) ->
       exists c, c < M /\ (in_table M s (a, c, d) \/
         ~ occurs M (fun v => in_table M s v \/ v = (a, c, d)) (a, c, d))).
Proof.
  intros M s L.
  set (ok := fun a d c => in_table M s (a, c, d) \/ ~ occurs M (fun v => in_table M s v \/ v = (a, c, d)) (a, c, d)).
  assert (LE : forall a c d, a < M -> c < M -> d < M -> ck s (place M (a, c, d)) = false ->
     exists r, legit_enum_idx M (set_bit s (place M (a, c, d)) true) (place M (a, c, d)) = Some r /\
       (r = true <-> occurs M (fun v => in_table M s v \/ v = (a, c, d)) (a, c, d))).
  { intros a c d Ha Hc Hd K. assert (B : place M (a, c, d) < length s) by (rewrite L; apply place_bound; cbn; auto).
    destruct (C101_view M (set_bit s (place M (a, c, d)) true) a c d) as (r & E & R); auto.
    - rewrite set_bit_length. auto.
    - change (ck (set_bit s (place M (a, c, d)) true) (place M (a, c, d)) = true). rewrite ck_set_bit, Nat.eqb_refl; auto.
    - exists r. split; auto. rewrite R.
      assert (V : forall n x i, (forall k, k < n -> x k < M) -> 1 <= n -> i < n ->
        (in_table M (set_bit s (place M (a, c, d)) true) (view n x i) <-> in_table M s (view n x i) \/ view n x i = (a, c, d))).
      { intros n x i Hx Hn Hi.
        assert (Vv : valid M (view n x i)) by (unfold view, valid; repeat split; apply Hx; auto; apply Nat.mod_upper_bound; lia).
        change (ck (set_bit s (place M (a, c, d)) true) (place M (view n x i)) = true <-> ck s (place M (view n x i)) = true \/ view n x i = (a, c, d)).
        rewrite ck_set_bit by auto. destruct (Nat.eqb_spec (place M (a, c, d)) (place M (view n x i))) as [P|P].
        - split; auto. intros _. right. rewrite <- (config_place M (view n x i) Vv), <- P. apply config_place. cbn. auto.
        - split; auto. intros [X|X]; auto. rewrite X in P. congruence. }
      unfold occurs. split; intros (n & x & i & (X1 & X2 & X3) & X4 & X5); exists n, x, i;
        (split; [split; [auto|split; [auto|]]|auto]); intros j Hj; apply V; auto. }
  assert (CL : forall a d cs, a < M -> d < M -> (forall c, In c cs -> c < M) ->
    exists r, can_leave M s a d cs = Some r /\ (r = true <-> exists c, In c cs /\ ok a d c)).
  { intros a d cs Ha Hd. induction cs as [|c cs IH]; intros Hcs; cbn [can_leave].
    - exists false. split; auto. split; [discriminate|]. intros (c & [] & _).
    - assert (Hc : c < M) by (apply Hcs; left; auto). rewrite enum_place.
      destruct (ck s (place M (a, c, d))) eqn:K.
      + exists true. split; auto. split; auto. intros _. exists c. split; [left; auto|]. left. exact K.
      + destruct (LE a c d Ha Hc Hd K) as (r & -> & R). destruct r.
        * destruct IH as (r & E & Hr); [intros c' Hc'; apply Hcs; right; auto|]. exists r. split; auto. rewrite Hr. split.
          -- intros (c' & H1 & H2). exists c'. split; [right|]; auto.
          -- intros (c' & [<-|H1] & H2); [|exists c'; auto]. exfalso. destruct H2 as [H2|H2].
             ++ unfold in_table in H2. unfold ck in K. congruence.
             ++ apply H2, R. auto.
        * exists true. split; auto. split; auto. intros _. exists c. split; [left; auto|]. right.
          intros H. apply R in H. discriminate. }
  assert (PL : forall todo, (forall e, In e todo -> e < M * M * M) ->
    exists r, propagation_loop M s todo = Some r /\ (r = true <-> forall a b d, a < M -> b < M -> d < M -> In (place M (a, b, d)) todo ->
      ~ in_table M s (a, b, d) -> exists c, c < M /\ ok a d c)).
  { induction todo as [|e todo IH]; intros Hb; cbn [propagation_loop].
    - exists true. split; auto. split; auto. intros _ a b d _ _ _ [].
    - destruct IH as (r & E & R); [intros e' He'; apply Hb; right; auto|].
      destruct (place_config M e) as (Ve & Pe); [apply Hb; left; auto|].
      destruct (pc_config_of_enum_idx M e) as ((a0 & b0) & d0). destruct Ve as (Va & Vb & Vd).
      destruct (ck s e) eqn:K.
      + exists r. split; auto. rewrite R. split; intros H a b d Ha Hbb Hd Hin Hnot.
        * destruct Hin as [->|Hin]; [|eauto]. exfalso. apply Hnot. exact K.
        * apply (H a b d); auto. right. auto.
      + destruct (CL a0 d0 (seq 0 M) Va Vd) as (r' & -> & R'); [intros c Hc; apply in_seq in Hc; lia|].
        destruct r'.
        * exists r. split; auto. rewrite R. split; intros H a b d Ha Hbb Hd Hin Hnot.
          -- destruct Hin as [->|Hin]; [|eauto].
             assert (X : (a, b, d) = (a0, b0, d0)).
             { rewrite <- (config_place M (a, b, d)), <- (config_place M (a0, b0, d0)) by (cbn; auto). rewrite Pe. auto. }
             injection X as -> -> ->. destruct (proj1 R' eq_refl) as (c & H1 & H2). exists c. apply in_seq in H1. split; [lia|auto].
          -- apply (H a b d); auto. right. auto.
        * exists false. split; auto. split; [discriminate|]. intros H. apply R'.
          destruct (H a0 b0 d0) as (c & H1 & H2); auto.
          -- left. auto.
          -- intros X. unfold in_table in X. rewrite Pe in X. unfold ck in K. congruence.
          -- exists c. split; auto. apply in_seq. lia. }
  destruct (PL (seq 0 (length s))) as (r & E & R); [intros e He; apply in_seq in He; lia|].
  exists r. split; auto. rewrite R. split; intros H a b d Ha Hb Hd.
  - apply H; auto. apply in_seq. assert (place M (a, b, d) < M * M * M) by (apply place_bound; cbn; auto). lia.
  - intros _ Hn. exact (H a b d Ha Hb Hd Hn).
Qed.
Print Assumptions C101_propagation.

(** Two values.  The views 001, 010, 100 and 101 (two 1s are never neighbours, and
    neither are three 0s) allow rings of every size from 2 on, but not of size 1; a
    fifth view, 011, occurs nowhere and is cut.  The views 010 and 101 alone allow
    only rings of even size. *)
Definition tab (vs : list (nat * nat * nat)) : list bool :=
  map (fun i => existsb (fun v => place 2 v =? i) vs) (seq 0 8).
Theorem C101_example :
  let s := tab [(0,0,1); (0,1,0); (1,0,0); (1,0,1)] in
  let fuel := 257 in
  length s = 2 * 2 * 2 /\ 2 ^ (2 * 2 * 2) < fuel /\
  biring_fixpoint 2 (tab [(0,0,1); (0,1,0); (1,0,0); (1,0,1); (0,1,1)]) = Some s /\
  biring_sat_ck 2 fuel s 2 = Some true /\ biring_sat_ck 2 fuel s 1 = Some false /\ biring_sat_ck 2 fuel s 0 = Some true /\
  biring_sat_ck 2 fuel (tab [(0,1,0); (1,0,1)]) 0 = Some false /\
  local_propagation_syn 2 (tab [(0,1,0); (1,0,1)]) = Some true /\
  local_propagation_syn 2 (tab [(0,0,0); (0,1,0)]) = Some false.
Proof. repeat split; try (vm_compute; reflexivity). Qed.
Print Assumptions C101_example.
