(** From an infinite execution of a deterministic self-disabling protocol on a
    ring to a periodic pattern of local actions (used for C55 and C76). *)
From Coq Require Import List Arith Lia Bool.
From Verif Require Import FinLib UniSpec LivelockSpec LivelockModel LivelockProofs LiveGrid.
Import ListNotations.

(** A pattern of values, repeating with period [m] downwards and [n] to the right,
    in which every value is produced by an action. *)
Definition torus (P : protocol) (X : nat -> nat -> nat) (m n : nat) : Prop :=
  1 <= m /\ 1 <= n /\
  (forall t q, X (t + m) q = X t q) /\ (forall t q, X t (q + n) = X t q) /\
  forall t q, P (X (S t) q) (X t (S q)) (X (S t) (S q)).

Lemma torus_block : forall P X m n, torus P X m n -> exists row col, periodic_block P row col.
Proof.
  intros P X m n (Hm & Hn & Pm & Pn & HP).
  exists (map (X 0) (seq 0 (S n))), (map (fun i => X i 0) (seq 0 (S m))).
  assert (Nth : forall (g : nat -> nat) len i, i < len -> nth i (map g (seq 0 len)) 0 = g i).
  { intros g len i H. rewrite (nth_indep _ 0 (g 0)) by (rewrite map_length, seq_length; auto).
    rewrite map_nth, seq_nth by auto. auto. }
  exists m, n, X. split; [auto|]. split; [auto|]. rewrite !map_length, !seq_length. split; [auto|]. split; [auto|].
  split; [|split].
  - intros j Hj. rewrite Nth by lia. split; [auto|]. rewrite <- (Pm 0 j). auto.
  - intros i Hi. rewrite Nth by lia. split; [auto|]. rewrite <- (Pn i 0). auto.
  - intros i j _ _. auto.
Qed.

Section Live.
Variable f : nat -> nat -> nat.
Variable M N : nat.
Hypothesis HN : 2 <= N.
Let P : protocol := fun a b c => a < M /\ b < M /\ c < M /\ f a b = c.
Hypothesis SD : self_disabling P.

Section Cyc.
Variable e : nat -> list nat.
Variable L : nat.
Hypothesis HL : 1 <= L.
Hypothesis Eok : forall k, ok M N (e k).
Hypothesis Estep : forall k, ring_step P (e k) (e (S k)).
Hypothesis Ecyc : forall k, e (k + L) = e k.

Notation DD := (D f M N e).

Lemma D_add : forall q, DD (q + N) = DD q + DD N.
Proof.
  induction q; [reflexivity|]. change (S q + N) with (S (q + N)). cbn [D]. rewrite IHq.
  replace (S (q + N)) with (S q + 1 * N) by lia. rewrite Nat.mod_add by lia. lia.
Qed.

Lemma D_adds : forall j q, DD (q + j * N) = DD q + j * DD N.
Proof.
  induction j; intros q; [rewrite !Nat.add_0_r; auto|].
  replace (q + S j * N) with ((q + j * N) + N) by lia. rewrite D_add, IHj. lia.
Qed.

Lemma torus_of_cycle : exists X m n, torus P X m n.
Proof.
  destruct (hist_steps f M N HN SD e L HL Eok Estep Ecyc L 0 _ _ (hist0 f M N HN e L HL)) as (n & A & H & _ & HA). change (0 + L) with L in H.
  assert (Hcyc0 : e L = e 0) by (rewrite <- (Ecyc 0); auto).
  assert (Hlvl : forall p, p < N -> n p = n (pred_of N p)).
  { intros p Hp. pose proof (h_lvl _ _ _ _ _ _ _ H p Hp) as Q. rewrite Hcyc0 in Q. lia. }
  assert (Hall : forall p, p < N -> n p = n 0).
  { induction p; intros Hp; [auto|]. rewrite (Hlvl (S p) Hp). unfold pred_of. simpl. rewrite Nat.sub_0_r. apply IHp. lia. }
  set (k := n 0).
  assert (Hk : 1 <= k).
  { assert (Q : sum n N = N * k).
    { rewrite (sum_ext n (fun _ => k) N) by (intros i Hi; apply Hall; auto). clear. induction N; simpl; lia. }
    rewrite (h_sum _ _ _ _ _ _ _ H) in Q. destruct k; lia. }
  assert (Hwrap : forall p j, p < N -> j <= k -> A p (j mod k) = A p j).
  { intros p j Hp Hj. destruct (Nat.eq_dec j k) as [->|Hne]; [|rewrite Nat.mod_small by lia; auto].
    rewrite Nat.mod_same by lia. rewrite HA by lia. pose proof (h_cur _ _ _ _ _ _ _ H p Hp) as Q.
    rewrite (Hall p Hp), Hcyc0 in Q. auto. }
  assert (Hml : forall q, q mod N < N) by (intros; apply Nat.mod_upper_bound; lia).
  exists (fun t q => A (q mod N) ((t + DD q) mod k)), k, (k * N). split; [auto|]. split; [nia|]. split; [|split].
  - intros t q. f_equal. replace (t + k + DD q) with (t + DD q + 1 * k) by lia. apply Nat.mod_add. lia.
  - intros t q. rewrite Nat.mod_add by lia. f_equal. rewrite D_adds.
    replace (t + (DD q + k * DD N)) with (t + DD q + DD N * k) by lia. apply Nat.mod_add. lia.
  - intros t q. set (p' := S q mod N). set (i := (t + DD (S q)) mod k). set (b := b2n (enb f M N (e 0) p')).
    assert (Hi : i < k) by (apply Nat.mod_upper_bound; lia).
    assert (Ed : t + DD (S q) = i + (t + DD (S q)) / k * k).
    { unfold i. pose proof (Nat.div_mod (t + DD (S q)) k ltac:(lia)). lia. }
    assert (Hb : b <= 1) by (unfold b; destruct (enb f M N (e 0) p'); simpl; lia).
    assert (HD : DD (S q) = DD q + b) by reflexivity.
    assert (Hp' : p' < N) by apply Hml.
    pose proof (h_rec _ _ _ _ _ _ _ H p' i Hp' ltac:(rewrite Hall; auto)) as HR.
    fold b in HR. unfold p' in HR at 1. rewrite (mod_succ N HN L HL), (pr_sc N HN) in HR by auto.
    assert (E1 : A p' ((S t + DD (S q)) mod k) = A p' (S i)).
    { rewrite <- (Hwrap p' (S i)) by (auto; apply Hml). f_equal.
      replace (S t + DD (S q)) with (S i + (t + DD (S q)) / k * k) by lia. apply Nat.mod_add. lia. }
    assert (E2 : A (q mod N) ((S t + DD q) mod k) = A (q mod N) (S i - b)).
    { rewrite <- (Hwrap (q mod N) (S i - b)) by (auto; lia). f_equal.
      replace (S t + DD q) with (S i - b + (t + DD (S q)) / k * k) by lia. apply Nat.mod_add. lia. }
    fold p'. rewrite E1, E2. exact HR.
Qed.
End Cyc.

Lemma torus_of_livelock : livelock_on P M N -> exists X m n, torus P X m n.
Proof.
  intros (e & L0 & D0 & St).
  assert (Eok : forall k, ok M N (e k)).
  { induction k; [split; auto|]. destruct (step_form f M N HN _ _ IHk (St k)) as (_ & _ & _ & _ & H). auto. }
  destruct (pigeonhole _ list_nat_eq_dec (lists_of (seq 0 M) N) e) as (i & j & Hij & E).
  { intros k _. apply in_lists_of. destruct (Eok k) as [Lk Dk]. split; auto.
    apply Forall_lt_in_seq. auto. }
  apply (torus_of_cycle (fun k => e (i + k mod (j - i))) (j - i)); [lia| | |].
  - intros k. apply Eok.
  - intros k. cbv beta. set (L := j - i) in *.
    pose proof (Nat.mod_upper_bound k L ltac:(lia)).
    assert (E' : e (i + S k mod L) = e (S (i + k mod L))).
    { pose proof (Nat.div_mod k L ltac:(lia)).
      destruct (Nat.eq_dec (S (k mod L)) L) as [EL|EL].
      - replace (S k) with (0 + (S (k / L)) * L) by nia. rewrite Nat.mod_add by lia.
        rewrite Nat.mod_0_l by lia. rewrite Nat.add_0_r. rewrite E. f_equal. lia.
      - replace (S k) with (S (k mod L) + (k / L) * L) by lia. rewrite Nat.mod_add by lia.
        rewrite Nat.mod_small by lia. f_equal. lia. }
    rewrite E'. apply St.
  - intros k. cbv beta. do 2 f_equal. replace (k + (j - i)) with (k + 1 * (j - i)) by lia.
    apply Nat.mod_add. lia.
Qed.
End Live.

(** A ring of one process. *)
Lemma torus_one : forall M (P : protocol), (forall a b c, P a b c -> c < M) ->
  livelock_on P M 1 -> exists X m n, torus P X m n.
Proof.
  intros M P HP (e & L0 & D0 & St).
  set (v := fun k => nth 0 (e k) 0).
  assert (HV : forall k, e k = [v k] /\ v k < M).
  { induction k.
    - unfold v. destruct (e 0) as [|x [|y l]]; try discriminate. split; auto.
      inversion D0; auto.
    - destruct IHk as [E _]. destruct (St k) as (p & a & b & c & H1 & H2 & H3 & H4).
      rewrite E in *. destruct p; [|destruct p; discriminate].
      unfold v. rewrite H4. simpl. split; auto. eapply HP; eauto. }
  assert (HS : forall k, P (v k) (v k) (v (S k))).
  { intros k. destruct (HV k) as [E _], (HV (S k)) as [E' _].
    destruct (St k) as (p & a & b & c & H1 & H2 & H3 & H4).
    rewrite E in *. destruct p; [|destruct p; discriminate]. simpl in H1, H2.
    injection H1 as <-. injection H2 as <-. rewrite E' in H4. simpl in H4. injection H4 as <-. auto. }
  destruct (pigeonhole _ Nat.eq_dec (seq 0 M) v) as (i & j & Hij & E).
  { intros k _. apply in_seq. destruct (HV k). lia. }
  set (L := j - i). set (w := fun k => v (i + k mod L)).
  assert (HL : 1 <= L) by (unfold L; lia).
  assert (HW : forall k, P (w k) (w k) (w (S k))).
  { intros k. unfold w. pose proof (Nat.mod_upper_bound k L ltac:(lia)).
    assert (E' : v (i + S k mod L) = v (S (i + k mod L))).
    { pose proof (Nat.div_mod k L ltac:(lia)).
      destruct (Nat.eq_dec (S (k mod L)) L) as [EL|EL].
      - replace (S k) with (0 + (S (k / L)) * L) by nia. rewrite Nat.mod_add by lia.
        rewrite Nat.mod_0_l by lia. rewrite Nat.add_0_r. rewrite E. f_equal. unfold L in *. lia.
      - replace (S k) with (S (k mod L) + (k / L) * L) by lia. rewrite Nat.mod_add by lia.
        rewrite Nat.mod_small by lia. f_equal. lia. }
    rewrite E'. apply HS. }
  assert (HP' : forall k, w (k + L) = w k).
  { intros k. unfold w. replace (k + L) with (k + 1 * L) by lia. rewrite Nat.mod_add by lia. auto. }
  exists (fun s q => w (s + q)), L, L. split; [auto|]. split; [auto|]. split; [|split].
  - intros t q. replace (t + L + q) with (t + q + L) by lia. auto.
  - intros t q. replace (t + (q + L)) with (t + q + L) by lia. auto.
  - intros s q. replace (s + S q) with (S s + q) by lia. replace (S s + S q) with (S (S s + q)) by lia. apply HW.
Qed.

Lemma table_torus : forall M t N, table_ok M t -> self_disabling (table_protocol M t) ->
  livelock_on (table_protocol M t) M N -> exists X m n, torus (table_protocol M t) X m n.
Proof.
  intros M t N Hok SD HL. destruct N as [|[|N]].
  { destruct HL as (e & L0 & _ & St). destruct (St 0) as (p & a & b & c & _ & H & _).
    destruct (e 0); [destruct p|]; discriminate. }
  { apply (torus_one M); auto. intros a b c H. apply table_protocol_range in H. tauto. }
  pose proof (table_protocol_fun M t Hok) as HF.
  destruct (torus_of_livelock (ppg t M) M (S (S N)) ltac:(lia)) as (X & m & n & H1 & H2 & H3 & H4 & H5).
  - intros a b c d P1 P2. apply HF in P1, P2. apply (SD a b c d); auto.
  - eapply livelock_on_ext; eauto. intros a b c. apply HF.
  - exists X, m, n. split; [auto|]. split; [auto|]. split; [auto|]. split; [auto|]. intros s q. apply HF. auto.
Qed.
