(** Tile digraphs: exactness, and acyclicity excludes livelocks. *)
From Coq Require Import List Arith Lia Bool.
From Verif Require Import FinLib UniModel UniSpec UniProofs LivelockModel LivelockSpec
  LivelockProofs LivelockProofs2 TileModel TileSpec TileProofs.
Import ListNotations.

(** Membership of an action in a bit set. *)
Definition in_set (M : nat) (set : list bool) (a b c : nat) : Prop :=
  a < M /\ b < M /\ c < M /\ nth_error set ((a * M + b) * M + c) = Some true.

Lemma in_set_nth : forall M set a b c, length set = M * M * M -> a < M -> b < M -> c < M ->
  (in_set M set a b c <-> nth (id_of3 a b c M) set false = true).
Proof.
  intros M set a b c L Ha Hb Hc. unfold in_set. change ((a * M + b) * M + c) with (id_of3 a b c M).
  split.
  - intros (_ & _ & _ & H). apply nth_error_nth; auto.
  - intros H. repeat split; auto. rewrite <- H. apply nth_error_nth'. rewrite L. apply id3_lt; auto.
Qed.

Lemma overlap_spec : forall M set ma mb mc, length set = M * M * M ->
  (action_mask_overlap_ck (ma, mb, mc) set M = true <->
   exists a b c, in_set M set a b c /\ (ma = M \/ ma = a) /\ (mb = M \/ mb = b) /\ (mc = M \/ mc = c)).
Proof.
  intros M set ma mb mc L. unfold action_mask_overlap_ck. rewrite existsb_exists. split.
  - intros (i & Hi & H). apply in_mask_ids in Hi.
    destruct Hi as (a & b & c & H1 & H2 & H3 & H4 & H5 & H6 & ->).
    exists a, b, c. split; auto. apply in_set_nth; auto.
  - intros (a & b & c & HS & H4 & H5 & H6). pose proof HS as (H1 & H2 & H3 & _).
    exists (id_of3 a b c M). split; [apply in_mask_ids; exists a, b, c; auto 10|].
    apply in_set_nth; auto.
Qed.

Lemma in_ones_act : forall M set i, length set = M * M * M ->
  (In i (ones set) <-> exists a b c, in_set M set a b c /\ i = id_of3 a b c M).
Proof.
  intros M set i L. rewrite in_ones. split.
  - intros H. assert (Hi : i < M * M * M) by (rewrite <- L; apply nth_error_Some; congruence).
    pose proof (uniact_of_id_range M i Hi) as R. destruct (uniact_of_id i M) as [[a b] c].
    destruct R as (Ha & Hb & Hc & E). exists a, b, c. split; auto.
    repeat split; auto. change ((a * M + b) * M + c) with (id_of3 a b c M). congruence.
  - intros (a & b & c & (Ha & Hb & Hc & H) & ->). exact H.
Qed.

Lemma tile_arcs_spec : forall M set t u v, length set = M * M * M -> table_ok M t ->
  (In (u, v) (tile_arcs set t M) <->
   exists a b c d e f g, u = (a * M + b) * M + d /\ v = (c * M + e) * M + g /\
     in_set M set a b c /\ (exists x, in_set M set x c d) /\ (exists y, in_set M set b y e) /\
     table_protocol M t c e f /\ table_protocol M t d f g).
Proof.
  intros M set t u v L Hok. unfold tile_arcs. rewrite in_flat_map. split.
  - intros (i & Hi & H). apply (in_ones_act M) in Hi; auto. destruct Hi as (a & b & c & HS & ->).
    pose proof HS as (Ha & Hb & Hc & _). rewrite uniact_of_id3 in H by auto.
    apply in_flat_map in H. destruct H as (d & Hd & H). apply in_seq in Hd.
    destruct (action_mask_overlap_ck (M, c, d) set M) eqn:O1; [|destruct H].
    apply in_flat_map in H. destruct H as (e & He & H). apply in_seq in He.
    destruct (Nat.ltb_spec (ppg t M c e) M) as [Hf|]; [|destruct H].
    destruct (Nat.ltb_spec (ppg t M d (ppg t M c e)) M) as [Hg|]; [|destruct H].
    destruct (action_mask_overlap_ck (b, M, e) set M) eqn:O2; [|destruct H].
    destruct H as [Heq|[]]. injection Heq as <- <-.
    apply overlap_spec in O1, O2; auto.
    destruct O1 as (x1 & x2 & x3 & S1 & _ & [E2|<-] & [E3|<-]); try lia.
    destruct O2 as (y1 & y2 & y3 & S2 & [E4|<-] & _ & [E5|<-]); try lia.
    exists a, b, c, d, e, (ppg t M c e), (ppg t M d (ppg t M c e)).
    split; [reflexivity|]. split; [reflexivity|]. split; [auto|]. split; [eauto|]. split; [eauto|].
    split; apply ppg_protocol; auto; lia.
  - intros (a & b & c & d & e & f & g & -> & -> & HS & (x & S1) & (y & S2) & P1 & P2).
    pose proof HS as (Ha & Hb & Hc & _).
    apply protocol_ppg in P1, P2; auto. destruct P1 as (_ & He & Hf & E1), P2 as (Hd & _ & Hg & E2).
    exists (id_of3 a b c M). split; [apply (in_ones_act M); auto; eauto|].
    rewrite uniact_of_id3 by auto. apply in_flat_map. exists d. split; [apply in_seq; lia|].
    assert (O1 : action_mask_overlap_ck (M, c, d) set M = true)
      by (apply overlap_spec; auto; exists x, c, d; auto).
    assert (O2 : action_mask_overlap_ck (b, M, e) set M = true)
      by (apply overlap_spec; auto; exists b, y, e; auto).
    rewrite O1. apply in_flat_map. exists e. split; [apply in_seq; lia|].
    rewrite E1, E2, O2. apply Nat.ltb_lt in Hf, Hg. rewrite Hf, Hg. left. reflexivity.
Qed.

Lemma overapprox_arcs_spec : forall M set u v, length set = M * M * M ->
  (In (u, v) (overapprox_tile_arcs set M) <->
   exists a b c d e f g, u = (a * M + b) * M + d /\ v = (c * M + e) * M + g /\
     in_set M set a b c /\ (exists x, in_set M set x c d) /\ (exists y, in_set M set b y e) /\
     in_set M set c e f /\ in_set M set d f g).
Proof.
  intros M set u v L. unfold overapprox_tile_arcs. rewrite in_flat_map. split.
  - intros (i & Hi & H). apply (in_ones_act M) in Hi; auto. destruct Hi as (a & b & c & HS & ->).
    pose proof HS as (Ha & Hb & Hc & _). rewrite uniact_of_id3 in H by auto.
    apply in_flat_map in H. destruct H as (d & Hd & H). apply in_seq in Hd.
    destruct (action_mask_overlap_ck (M, c, d) set M) eqn:O1; [|destruct H].
    apply in_flat_map in H. destruct H as (e & He & H). apply in_seq in He.
    destruct (action_mask_overlap_ck (b, M, e) set M) eqn:O2; [|destruct H].
    apply in_flat_map in H. destruct H as (f & Hf & H). apply in_seq in Hf.
    destruct (nth (id_of3 c e f M) set false) eqn:N1; [|destruct H].
    apply in_flat_map in H. destruct H as (g & Hg & H). apply in_seq in Hg.
    destruct (nth (id_of3 d f g M) set false) eqn:N2; [|destruct H].
    destruct H as [Heq|[]]. injection Heq as <- <-.
    apply overlap_spec in O1, O2; auto.
    destruct O1 as (x1 & x2 & x3 & S1 & _ & [E2|<-] & [E3|<-]); try lia.
    destruct O2 as (y1 & y2 & y3 & S2 & [E4|<-] & _ & [E5|<-]); try lia.
    exists a, b, c, d, e, f, g.
    split; [reflexivity|]. split; [reflexivity|]. split; [auto|]. split; [eauto|]. split; [eauto|].
    split; apply in_set_nth; auto; lia.
  - intros (a & b & c & d & e & f & g & -> & -> & HS & (x & S1) & (y & S2) & P1 & P2).
    pose proof HS as (Ha & Hb & Hc & _).
    pose proof P1 as (_ & He & Hf & _). pose proof P2 as (Hd & _ & Hg & _).
    apply in_set_nth in P1, P2; auto.
    exists (id_of3 a b c M). split; [apply (in_ones_act M); auto; eauto|].
    rewrite uniact_of_id3 by auto. apply in_flat_map. exists d. split; [apply in_seq; lia|].
    assert (O1 : action_mask_overlap_ck (M, c, d) set M = true)
      by (apply overlap_spec; auto; exists x, c, d; auto).
    assert (O2 : action_mask_overlap_ck (b, M, e) set M = true)
      by (apply overlap_spec; auto; exists b, y, e; auto).
    rewrite O1. apply in_flat_map. exists e. split; [apply in_seq; lia|].
    rewrite O2. apply in_flat_map. exists f. split; [apply in_seq; lia|].
    rewrite P1. apply in_flat_map. exists g. split; [apply in_seq; lia|].
    rewrite P2. left. reflexivity.
Qed.

(** A long enough walk in a finite digraph closes. *)
Lemma walk_cycle : forall (R : nat -> nat -> Prop) K (w : nat -> nat),
  (forall k, k <= K -> w k < K) -> (forall k, k < K -> R (w k) (w (S k))) ->
  exists x, path R x x.
Proof.
  intros R K w HW HR.
  destruct (pigeonhole _ Nat.eq_dec (seq 0 K) w) as (i & j & Hij & E).
  { rewrite seq_length. intros k Hk. apply in_seq. specialize (HW k Hk). lia. }
  rewrite seq_length in Hij. exists (w i).
  assert (HP : forall d, i + S d <= K -> path R (w i) (w (i + S d))).
  { intros d. revert i Hij E. induction d; intros i Hij E Hd.
    - replace (i + 1) with (S i) by lia. apply path_one. apply HR. lia.
    - apply path_more with (w (S i)); [apply HR; lia|].
      assert (HG : forall d i, i + S d <= K -> path R (w i) (w (i + S d))).
      { clear - HR. induction d; intros i Hd.
        - replace (i + 1) with (S i) by lia. apply path_one. apply HR. lia.
        - apply path_more with (w (S i)); [apply HR; lia|].
          replace (i + S (S d)) with (S i + S d) by lia. apply IHd. lia. }
      replace (i + S (S d)) with (S i + S d) by lia. apply HG. lia. }
  specialize (HP (j - i - 1) ltac:(lia)). replace (i + S (j - i - 1)) with j in HP by lia.
  rewrite E. rewrite E in HP. exact HP.
Qed.

(** If the graph contains every arc justified by tiles of [P], an infinite
    execution of the table protocol produces a cycle. *)
Lemma tiles_acyclic : forall M t (R : nat -> nat -> Prop), table_ok M t ->
  self_disabling (table_protocol M t) ->
  (forall a b c d e f g x y1 y2, 
     table_protocol M t a b c -> table_protocol M t x c d -> table_protocol M t b y1 y2 -> y2 = e ->
     table_protocol M t c e f -> table_protocol M t d f g ->
     R ((a * M + b) * M + d) ((c * M + e) * M + g)) ->
  acyclic R -> livelock_free (table_protocol M t) M.
Proof.
  intros M t R Hok SD HR HA N HL.
  set (K := M * M * M).
  destruct (table_grid M t N Hok SD HL (K + 4)) as (X & t0 & q0 & H1 & H2 & _).
  destruct (walk_cycle R K (fun q => (X 2 q * M + X 1 (S q)) * M + X 3 (S q))) as (x & Hx).
  - intros q Hq. unfold K. apply id3_lt.
    + destruct (H2 1 q ltac:(lia) ltac:(lia)) as (? & _). auto.
    + destruct (H2 0 q ltac:(lia) ltac:(lia)) as (_ & _ & ? & _). auto.
    + destruct (H2 2 q ltac:(lia) ltac:(lia)) as (_ & _ & ? & _). auto.
  - intros q Hq. cbv beta.
    apply (HR _ _ (X 2 (S q)) _ (X 1 (S (S q))) (X 2 (S (S q))) _ (X 3 q) (X 0 (S (S q))) (X 1 (S (S q)))); auto;
      apply H2; lia.
  - exact (HA x Hx).
Qed.
