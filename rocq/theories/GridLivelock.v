(** From a doubly periodic grid of local actions to an infinite execution on a
    ring (used for C06 and C09). *)
From Coq Require Import List Arith Lia Bool.
From Verif Require Import FinLib UniSpec.
Import ListNotations.

Section Ring.
Variable P : protocol.
Variable M m n N : nat.
Variable X : nat -> nat -> nat.
Hypothesis Hm : 1 <= m.
Hypothesis HmN : m < N.
Hypothesis Xm : forall t p, X (t + m) p = X t p.
Hypothesis XN : forall t p, X t (p + N) = X t p.
Hypothesis XP : forall t p, P (X (S t) p) (X t (S p)) (X (S t) (S p)).
Hypothesis XM : forall t p, X t p < M.

Definition diff (lv : nat -> nat) (p : nat) : bool :=
  if p =? 0 then lv (N - 1) + m =? S (lv 0) else lv (p - 1) =? S (lv p).

Definition inv (lv : nat -> nat) : Prop :=
  (lv (N - 1) + m = lv 0 \/ lv (N - 1) + m = S (lv 0)) /\
  (forall p, 0 < p < N -> lv (p - 1) = lv p \/ lv (p - 1) = S (lv p)).

Definition nxt (p : nat) : nat := if S p =? N then 0 else S p.

Definition ready (lv : nat -> nat) (p : nat) : bool := diff lv p && negb (diff lv (nxt p)).

Lemma ready_exists : forall lv, inv lv -> exists p, p < N /\ ready lv p = true.
Proof.
  intros lv [I0 I].
  destruct (existsb (ready lv) (seq 0 N)) eqn:E.
  - apply existsb_seq in E. destruct E as (p & Hp & E). exists p. split; [lia|auto].
  - exfalso.
    assert (Hn : forall p, p < N -> diff lv p = true -> diff lv (nxt p) = true).
    { intros p Hp Hd. destruct (diff lv (nxt p)) eqn:D; auto.
      assert (existsb (ready lv) (seq 0 N) = true); [|congruence].
      apply existsb_seq. exists p. split; [lia|]. unfold ready. rewrite Hd, D. reflexivity. }
    assert (Hup : forall q p, p + q < N -> diff lv p = true -> diff lv (p + q) = true).
    { induction q; intros p Hp Hd; [rewrite Nat.add_0_r; auto|].
      assert (diff lv (p + q) = true) by (apply IHq; auto; lia).
      apply Hn in H; [|lia]. unfold nxt in H.
      replace (S (p + q) =? N) with false in H by (symmetry; apply Nat.eqb_neq; lia).
      replace (p + S q) with (S (p + q)) by lia. auto. }
    destruct (diff lv 0) eqn:D0.
    + (* every process is enabled: the levels drop N times *)
      assert (Hall : forall p, p < N -> lv p + p = lv 0).
      { induction p; intros Hp; [lia|].
        assert (diff lv (S p) = true) by (apply (Hup (S p) 0); auto).
        unfold diff in H. simpl in H. rewrite Nat.sub_0_r in H. apply Nat.eqb_eq in H.
        specialize (IHp ltac:(lia)). lia. }
      specialize (Hall (N - 1) ltac:(lia)).
      unfold diff in D0. simpl in D0. apply Nat.eqb_eq in D0. lia.
    + assert (Hno : forall p, p < N -> diff lv p = false).
      { intros p Hp. destruct (diff lv p) eqn:D; auto.
        assert (diff lv (p + (N - 1 - p)) = true) by (apply Hup; auto; lia).
        apply Hn in H; [|lia]. unfold nxt in H.
        replace (S (p + (N - 1 - p))) with N in H by lia. rewrite Nat.eqb_refl in H. congruence. }
      assert (Hall : forall p, p < N -> lv p = lv 0).
      { induction p; intros Hp; [lia|].
        specialize (Hno (S p) Hp). unfold diff in Hno. simpl in Hno. rewrite Nat.sub_0_r in Hno.
        apply Nat.eqb_neq in Hno. specialize (IHp ltac:(lia)).
        destruct (I (S p) ltac:(lia)) as [E1|E1]; simpl in E1; rewrite Nat.sub_0_r in E1; lia. }
      specialize (Hall (N - 1) ltac:(lia)).
      unfold diff in D0. simpl in D0. apply Nat.eqb_neq in D0. lia.
Qed.

Definition pick (lv : nat -> nat) : nat :=
  match find (ready lv) (seq 0 N) with Some p => p | None => 0 end.

Lemma pick_ready : forall lv, inv lv -> pick lv < N /\ ready lv (pick lv) = true.
Proof.
  intros lv I. unfold pick. destruct (find (ready lv) (seq 0 N)) eqn:F.
  - apply find_some in F. destruct F as [F1 F2]. apply in_seq in F1. split; [lia|auto].
  - destruct (ready_exists lv I) as (p & Hp & R).
    pose proof (find_none _ _ F p). rewrite H in R; [discriminate|]. apply in_seq; lia.
Qed.

Definition bump (lv : nat -> nat) : nat -> nat :=
  let q := pick lv in fun p => if p =? q then S (lv p) else lv p.

Lemma bump_inv : forall lv, inv lv -> inv (bump lv).
Proof.
  intros lv I. destruct (pick_ready lv I) as [Hq R]. unfold bump.
  set (q := pick lv) in *. unfold ready in R. apply andb_true_iff in R. destruct R as [R1 R2].
  apply negb_true_iff in R2. destruct I as [I0 I]. split.
  - destruct (Nat.eqb_spec 0 q) as [E0|E0]; destruct (Nat.eqb_spec (N - 1) q) as [E1|E1].
    + lia.
    + (* q = 0 *) rewrite <- E0 in R1. unfold diff in R1. simpl in R1. apply Nat.eqb_eq in R1. lia.
    + (* q = N-1 *) unfold nxt in R2. replace (S q =? N) with true in R2 by (symmetry; apply Nat.eqb_eq; lia).
      unfold diff in R2. simpl in R2. apply Nat.eqb_neq in R2. lia.
    + lia.
  - intros p Hp. specialize (I p Hp).
    destruct (Nat.eqb_spec (p - 1) q) as [E0|E0]; destruct (Nat.eqb_spec p q) as [E1|E1].
    + lia.
    + unfold nxt in R2. replace (S q =? N) with false in R2 by (symmetry; apply Nat.eqb_neq; lia).
      unfold diff in R2. replace (S q =? 0) with false in R2 by reflexivity.
      apply Nat.eqb_neq in R2. replace (S q) with p in R2 by lia. subst q. rewrite <- E0 in *. lia.
    + subst q. rewrite <- E1 in *. unfold diff in R1.
      replace (p =? 0) with false in R1 by (symmetry; apply Nat.eqb_neq; lia).
      apply Nat.eqb_eq in R1. lia.
    + lia.
Qed.

Definition state (lv : nat -> nat) : list nat := map (fun p => X (lv p) p) (seq 0 N).

Lemma state_length : forall lv, length (state lv) = N.
Proof. intros. unfold state. rewrite map_length, seq_length. auto. Qed.

Lemma state_nth : forall lv p d, p < N -> nth p (state lv) d = X (lv p) p.
Proof.
  intros. unfold state.
  rewrite (nth_indep _ d (X (lv 0) 0)) by (rewrite map_length, seq_length; auto).
  rewrite (map_nth (fun p => X (lv p) p)). rewrite seq_nth by auto. reflexivity.
Qed.

Lemma state_nth_error : forall lv p, p < N -> nth_error (state lv) p = Some (X (lv p) p).
Proof.
  intros. rewrite (List.nth_error_nth' (state lv) 0) by (rewrite state_length; auto).
  rewrite state_nth by auto. reflexivity.
Qed.

Lemma bump_step : forall lv, inv lv -> ring_step P (state lv) (state (bump lv)).
Proof.
  intros lv I. destruct (pick_ready lv I) as [Hq R].
  exists (pick lv). set (q := pick lv) in *.
  exists (X (lv (pred_of N q)) (pred_of N q)), (X (lv q) q), (X (S (lv q)) q).
  rewrite state_length.
  split; [|split; [|split]].
  - apply state_nth_error. unfold pred_of. destruct (q =? 0); lia.
  - apply state_nth_error; auto.
  - unfold ready in R. apply andb_true_iff in R. destruct R as [R1 _].
    unfold diff in R1. unfold pred_of. destruct (Nat.eqb_spec q 0) as [E|E].
    + apply Nat.eqb_eq in R1. rewrite E.
      rewrite <- (Xm (lv (N - 1)) (N - 1)). rewrite R1.
      rewrite <- (XN (lv 0) 0), <- (XN (S (lv 0)) 0). simpl (0 + N).
      replace N with (S (N - 1)) at 2 3 by lia. apply XP.
    + apply Nat.eqb_eq in R1. rewrite R1.
      replace q with (S (q - 1)) at 3 5 by lia.
      pose proof (XP (lv q) (q - 1)) as HP.
      replace (S (q - 1)) with q in * by lia. exact HP.
  - rewrite <- upd_app_form by (rewrite state_length; auto).
    apply (list_ext_nth _ _ _ 0); [rewrite upd_length, !state_length; auto|].
    intros i Hi. rewrite state_length in Hi. rewrite state_nth by auto.
    rewrite nth_upd, state_length, state_nth by auto.
    unfold bump. fold q. destruct (Nat.eqb_spec i q) as [->|E].
    + replace (q <? N) with true by (symmetry; apply Nat.ltb_lt; auto). reflexivity.
    + reflexivity.
Qed.

Definition lv0 (p : nat) : nat := m - p.

Lemma lv0_inv : inv lv0.
Proof. unfold inv, lv0. split; [lia|]. intros; lia. Qed.

Fixpoint lvs (k : nat) : nat -> nat :=
  match k with 0 => lv0 | S k' => bump (lvs k') end.

Lemma lvs_inv : forall k, inv (lvs k).
Proof. induction k; simpl; [apply lv0_inv | apply bump_inv; auto]. Qed.

Lemma ring_livelock : livelock_on P M N.
Proof.
  exists (fun k => state (lvs k)). split; [apply state_length|]. split.
  - unfold in_domain. apply Forall_forall. intros v Hv. unfold state in Hv.
    apply in_map_iff in Hv. destruct Hv as (p & <- & _). apply XM.
  - intros k. simpl. apply bump_step. apply lvs_inv.
Qed.
End Ring.

Lemma grid_livelock : forall (P : protocol) M m n (X : nat -> nat -> nat),
  1 <= m -> 1 <= n ->
  (forall t p, X (t + m) p = X t p) ->
  (forall t p, X t (p + n) = X t p) ->
  (forall t p, P (X (S t) p) (X t (S p)) (X (S t) (S p))) ->
  (forall t p, X t p < M) ->
  forall K, exists N, K <= N /\ livelock_on P M N.
Proof.
  intros P M m n X Hm Hn Xm Xn XP XM K.
  exists (n * (m + K + 1)). split; [nia|].
  apply (ring_livelock P M m (n * (m + K + 1)) X); auto; [nia|].
  intros t p. generalize (m + K + 1). intros k. revert p. induction k; intros p.
  - rewrite Nat.mul_0_r, Nat.add_0_r. reflexivity.
  - replace (p + n * S k) with ((p + n * k) + n) by lia. rewrite Xn. apply IHk.
Qed.

(** A block of rows [0..m] and columns [0..n] with matching borders, every
    inner cell an action, extends to a doubly periodic grid. *)
Lemma block_grid : forall (P : protocol) M m n (G : nat -> nat -> nat),
  1 <= m -> 1 <= n ->
  (forall j, j <= n -> G m j = G 0 j) ->
  (forall i, i <= m -> G i n = G i 0) ->
  (forall i j, i < m -> j < n -> P (G (S i) j) (G i (S j)) (G (S i) (S j))) ->
  (forall i j, i <= m -> j <= n -> G i j < M) ->
  forall K, exists N, K <= N /\ livelock_on P M N.
Proof.
  intros P M m n G Hm Hn Gm Gn GP GM.
  apply (grid_livelock P M m n (fun t p => G (t mod m) (p mod n))); auto.
  - intros t p. replace (t + m) with (t + 1 * m) by lia. rewrite Nat.mod_add by lia. auto.
  - intros t p. replace (p + n) with (p + 1 * n) by lia. rewrite Nat.mod_add by lia. auto.
  - intros t p.
    pose proof (Nat.mod_upper_bound t m ltac:(lia)) as Bt.
    pose proof (Nat.mod_upper_bound p n ltac:(lia)) as Bp.
    assert (Em : forall j, j <= n -> G (S t mod m) j = G (S (t mod m)) j).
    { intros j Hj. destruct (Nat.eq_dec (S (t mod m)) m) as [E|E].
      - rewrite E. rewrite Gm by auto. f_equal.
        pose proof (Nat.div_mod t m ltac:(lia)).
        replace (S t) with (0 + (S (t / m)) * m) by nia. rewrite Nat.mod_add by lia. apply Nat.mod_0_l; lia.
      - f_equal. pose proof (Nat.div_mod t m ltac:(lia)).
        replace (S t) with (S (t mod m) + (t / m) * m) by lia. rewrite Nat.mod_add by lia.
        apply Nat.mod_small; lia. }
    assert (En : forall i, i <= m -> G i (S p mod n) = G i (S (p mod n))).
    { intros i Hi. destruct (Nat.eq_dec (S (p mod n)) n) as [E|E].
      - rewrite E. rewrite Gn by auto. f_equal.
        pose proof (Nat.div_mod p n ltac:(lia)).
        replace (S p) with (0 + (S (p / n)) * n) by nia. rewrite Nat.mod_add by lia. apply Nat.mod_0_l; lia.
      - f_equal. pose proof (Nat.div_mod p n ltac:(lia)).
        replace (S p) with (S (p mod n) + (p / n) * n) by lia. rewrite Nat.mod_add by lia.
        apply Nat.mod_small; lia. }
    pose proof (Nat.mod_upper_bound (S p) n ltac:(lia)) as Bsp.
    rewrite (Em (p mod n)), (Em (S p mod n)) by lia.
    rewrite (En (t mod m)), (En (S (t mod m))) by lia.
    apply GP; auto.
  - intros t p. apply GM; apply Nat.lt_le_incl; apply Nat.mod_upper_bound; lia.
Qed.
