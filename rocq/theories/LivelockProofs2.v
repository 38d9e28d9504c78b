(** More lemmas about the livelock search: limits, masks, bounded executions. *)
From Coq Require Import List Arith Lia Bool.
From Verif Require Import FinLib UniModel UniSpec UniProofs LivelockModel LivelockSpec
  GridLivelock LiveGrid LivelockProofs.
Import ListNotations.

(** ** C08 *)
Definition is_yes (r : semick_result) : Prop := exists row col, r = RYes row col.
Definition leq_res (r r' : semick_result) : Prop :=
  (r = RNil -> r' = RNil) /\ (is_yes r -> is_yes r').

Lemma diag_loop_leq : forall t M dp dp' ob oc,
  (forall b c, leq_res (dp b c) (dp' b c)) ->
  forall ds may may', (may = false -> may' = false) ->
  leq_res (diag_loop t M dp ob oc ds may) (diag_loop t M dp' ob oc ds may').
Proof.
  intros t M dp dp' ob oc H. induction ds as [|d ds IH]; intros may may' Hm; cbn [diag_loop].
  - split.
    + destruct may; [discriminate|]. rewrite Hm; auto.
    + intros (r & c & E). destruct may; discriminate.
  - destruct (build_col t M d oc) as [col|]; [|apply IH; auto]. cbv zeta.
    destruct (find_block _ _ _ _ _) as [[row c]|].
    { split; [discriminate|]. intros _. eexists _, _. reflexivity. }
    set (bot := ob ++ [nth (length ob) col 0]).
    destruct (H bot col) as [H1 H2].
    destruct (dp bot col) as [| |row c] eqn:E1.
    + rewrite H1 by auto. apply IH. auto.
    + destruct (dp' bot col) as [| |row' c'].
      * apply IH. discriminate.
      * apply IH. auto.
      * split.
        -- intros E. exfalso. eapply diag_loop_not_nil_may; eauto.
        -- intros _. eexists _, _. reflexivity.
    + destruct H2 as (r' & c' & ->); [eexists _, _; reflexivity|].
      split; [discriminate|]. intros _. eexists _, _. reflexivity.
Qed.

Lemma semick_rec_leq : forall t M d k ob oc, leq_res (semick_rec t M k ob oc) (semick_rec t M (k + d) ob oc).
Proof.
  intros t M d. induction k; intros ob oc.
  - cbn [semick_rec Nat.add].
    destruct d; cbn [semick_rec]; apply diag_loop_leq; auto; intros; (split; [discriminate|]);
    intros (r & c' & E); discriminate.
  - cbn [semick_rec Nat.add]. apply diag_loop_leq; auto.
Qed.

Lemma semick_loop_leq : forall M k d cs t may may', (may = false -> may' = false) ->
  leq_res (semick_loop M k cs t may) (semick_loop M (k + d) cs t may').
Proof.
  intros M k d. induction cs as [|c cs IH]; intros t may may' Hm; cbn [semick_loop].
  - split.
    + destruct may; [discriminate|]. rewrite Hm; auto.
    + intros (r & c & E). destruct may; discriminate.
  - destruct (semick_rec_leq t M d k [c] [c]) as [H1 H2].
    destruct (semick_rec t M k [c] [c]) as [| |row col].
    + rewrite H1 by auto. apply IH; auto.
    + destruct (semick_rec t M (k + d) [c] [c]).
      * apply IH. discriminate.
      * apply IH. auto.
      * split; [|intros _; eexists _, _; reflexivity].
        intros E. exfalso. eapply semick_loop_not_nil_may; eauto.
    + destruct H2 as (r' & c' & ->); [eexists _, _; reflexivity|].
      split; [discriminate|]. intros _. eexists _, _. reflexivity.
Qed.

Lemma livelock_semick_mono : forall limit limit' t M, limit <= limit' ->
  (livelock_semick limit t M = RNil -> livelock_semick limit' t M = RNil) /\
  ((exists row col, livelock_semick limit t M = RYes row col) ->
   (exists row col, livelock_semick limit' t M = RYes row col)).
Proof.
  intros. unfold livelock_semick.
  replace (limit' - 1) with ((limit - 1) + ((limit' - 1) - (limit - 1))) by lia.
  apply semick_loop_leq. auto.
Qed.

(** ** Bounded executions *)
Lemma lists_of_length : forall A (u : list A) n, length (lists_of u n) = length u ^ n.
Proof.
  intros A u. induction n; simpl; auto.
  rewrite <- IHn. generalize (lists_of u n). induction l; simpl; [lia|].
  rewrite app_length, map_length, IHl. lia.
Qed.

Lemma cycle_livelock : forall (P : protocol) M N (e : nat -> list nat) i j, i < j ->
  e i = e j -> length (e i) = N -> in_domain M (e i) ->
  (forall k, k < j -> ring_step P (e k) (e (S k))) -> livelock_on P M N.
Proof.
  intros P M N e i j Hij E L D St.
  exists (fun k => e (i + k mod (j - i))).
  rewrite Nat.mod_0_l by lia. rewrite Nat.add_0_r. split; auto. split; auto.
  intros k. set (L' := j - i) in *.
  pose proof (Nat.mod_upper_bound k L' ltac:(lia)).
  assert (E' : e (i + S k mod L') = e (S (i + k mod L'))).
  { pose proof (Nat.div_mod k L' ltac:(lia)).
    destruct (Nat.eq_dec (S (k mod L')) L') as [EL|EL].
    - replace (S k) with (0 + (S (k / L')) * L') by nia. rewrite Nat.mod_add by lia.
      rewrite Nat.mod_0_l by lia. rewrite Nat.add_0_r. rewrite E. f_equal. lia.
    - replace (S k) with (S (k mod L') + (k / L') * L') by lia. rewrite Nat.mod_add by lia.
      rewrite Nat.mod_small by lia. f_equal. lia. }
  rewrite E'. apply St. lia.
Qed.

Lemma ring_run_fun : forall P n s s', ring_run P n s s' ->
  exists e : nat -> list nat, e 0 = s /\ e n = s' /\ forall k, k < n -> ring_step P (e k) (e (S k)).
Proof.
  intros P n s s' H. induction H.
  - exists (fun _ => s). repeat split; auto. intros; lia.
  - destruct IHring_run as (e & E0 & En & Es).
    exists (fun k => match k with 0 => s | S k' => e k' end). repeat split; auto.
    intros k Hk. destruct k; [rewrite E0; auto|]. apply Es. lia.
Qed.

Lemma step_preserves : forall (P : protocol) M s s', (forall a b c, P a b c -> c < M) ->
  ring_step P s s' -> in_domain M s -> length s' = length s /\ in_domain M s'.
Proof.
  intros P M s s' HP (p & a & b & c & Ha & Hb & Hc & ->) D.
  assert (p < length s) by (apply nth_error_Some; congruence).
  rewrite <- upd_app_form by auto. split; [apply upd_length|]. apply Forall_upd; auto.
  eapply HP; eauto.
Qed.

Lemma bounded_runs : forall (P : protocol) M N n s s',
  (forall a b c, P a b c -> c < M) -> ~ livelock_on P M N ->
  length s = N -> in_domain M s -> ring_run P n s s' -> n < M ^ N.
Proof.
  intros P M N n s s' HP HL Ls Ds H.
  destruct (ring_run_fun P n s s' H) as (e & E0 & En & Es).
  assert (Hok : forall k, k <= n -> length (e k) = N /\ in_domain M (e k)).
  { induction k; intros Hk; [rewrite E0; auto|].
    destruct (IHk ltac:(lia)) as [H1 H2].
    destruct (step_preserves P M _ _ HP (Es k ltac:(lia)) H2) as [H3 H4].
    split; auto. congruence. }
  destruct (le_lt_dec (M ^ N) n) as [Hge|]; auto. exfalso. apply HL.
  destruct (pigeonhole _ list_nat_eq_dec (lists_of (seq 0 M) N) e) as (i & j & Hij & E).
  { intros k Hk. rewrite lists_of_length, seq_length in Hk. apply in_lists_of.
    destruct (Hok k ltac:(lia)). split; auto. apply Forall_lt_in_seq. auto. }
  rewrite lists_of_length, seq_length in Hij.
  destruct (Hok i ltac:(lia)).
  apply (cycle_livelock P M N e i j); auto; try lia. intros k Hk. apply Es. lia.
Qed.

(** ** C10 *)
Lemma in_mask_range : forall m M x, In x (mask_range m M) <-> x < M /\ (m = M \/ m = x).
Proof.
  intros m M x. unfold mask_range. destruct (Nat.eqb_spec m M) as [->|E].
  - rewrite in_seq. split; intros; [split; [lia|auto]|lia].
  - destruct (Nat.ltb_spec m M) as [L|G]; simpl.
    + split; [intros [<-|[]]; auto|]. intros [H [H1|H1]]; [congruence|auto].
    + split; [intros []|]. intros [H [H1|H1]]; [congruence|lia].
Qed.

Lemma in_mask_ids : forall ma mb mc M i,
  In i (mask_ids (ma, mb, mc) M) <->
  exists a b c, a < M /\ b < M /\ c < M /\ (ma = M \/ ma = a) /\ (mb = M \/ mb = b) /\
    (mc = M \/ mc = c) /\ i = id_of3 a b c M.
Proof.
  intros. unfold mask_ids. rewrite in_flat_map. split.
  - intros (a & Ha & H). apply in_flat_map in H. destruct H as (b & Hb & H).
    apply in_map_iff in H. destruct H as (c & <- & Hc).
    apply in_mask_range in Ha, Hb, Hc. exists a, b, c. tauto.
  - intros (a & b & c & Ha & Hb & Hc & Ma & Mb & Mc & ->).
    exists a. split; [apply in_mask_range; auto|]. apply in_flat_map.
    exists b. split; [apply in_mask_range; auto|]. apply in_map_iff.
    exists c. split; auto. apply in_mask_range; auto.
Qed.

Lemma fold_clear_nth : forall l bt i,
  nth i (fold_left (fun bt i => upd bt i false) l bt) false =
  nth i bt false && negb (existsb (Nat.eqb i) l).
Proof.
  induction l as [|x l IH]; intros bt i; cbn [fold_left existsb]; [rewrite andb_true_r; auto|].
  rewrite IH. rewrite nth_upd. destruct (Nat.eqb_spec i x) as [->|E]; simpl; auto.
  destruct (Nat.ltb_spec x (length bt)) as [H|H]; simpl; [rewrite andb_false_r; auto|].
  rewrite nth_overflow by auto. reflexivity.
Qed.

Lemma fold_clear_length : forall l (bt : list bool),
  length (fold_left (fun bt i => upd bt i false) l bt) = length bt.
Proof. induction l; intros; simpl; auto. rewrite IHl. apply upd_length. Qed.
