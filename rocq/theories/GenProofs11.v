(** Every livelock without a small block contains a printed protocol, up to renaming. *)
From Coq Require Import List Arith Lia Bool Relations.
From Verif Require Import FinLib UniModel UniSpec UniProofs LivelockModel LivelockSpec LivelockProofs LivelockProofs3 LivelockProofs4
  TileModel TileSpec TileProofs TileProofs2 CanonModel CanonSpec CanonProofs LiveTorus
  GenModel GenSpec GenProofs GenProofs2 GenProofs3 GenProofs4 GenProofs5 GenProofs6 GenProofs7 GenProofs8 GenProofs9.
Import ListNotations.

(** * A minimal renaming exists *)
Fixpoint num (B : nat) (l : list nat) : nat :=
  match l with [] => 0 | x :: l' => x * B ^ length l' + num B l' end.

Lemma num_lt : forall B l, Forall (fun x => x < B) l -> num B l < B ^ length l.
Proof.
  induction 1 as [|x l Hx HF IH]; cbn [num length Nat.pow]; [lia|].
  assert (1 <= B ^ length l) by (apply Nat.neq_0_lt_0; apply Nat.pow_nonzero; lia). nia.
Qed.

Lemma num_lex : forall B l l', length l = length l' -> Forall (fun x => x < B) l -> Forall (fun x => x < B) l' ->
  lex_less l l' -> num B l < num B l'.
Proof.
  intros B. induction l as [|x l IH]; intros [|y l'] HL F F' (i & Hi & HF & Hn); simpl in HL; try lia.
  inversion F; subst. inversion F'; subst. cbn [num]. assert (EL : length l = length l') by lia. rewrite EL.
  pose proof (num_lt B l H2) as N1. rewrite EL in N1. destruct i.
  - simpl in Hn. assert (x * B ^ length l' + B ^ length l' <= y * B ^ length l') by nia. lia.
  - simpl in HF, Hn, Hi. injection HF as -> HF. assert (num B l < num B l'); [|lia].
    apply IH; auto. exists i. split; [lia|]. auto.
Qed.

Definition permb (M : nat) (m : list nat) : bool :=
  (length m =? M) && forallb (fun i => (nth i m 0 <? M) &&
    forallb (fun j => negb (nth i m 0 =? nth j m 0) || (i =? j)) (seq 0 M)) (seq 0 M).

Lemma permb_spec : forall M m, permb M m = true <-> is_perm M m.
Proof.
  intros M m. unfold permb, is_perm. rewrite andb_true_iff, Nat.eqb_eq, forallb_forall. split.
  - intros [H1 H2]. split; [auto|]. split.
    + intros i Hi. specialize (H2 i ltac:(apply in_seq; lia)). apply andb_prop in H2. apply Nat.ltb_lt. tauto.
    + intros i j Hi Hj E. specialize (H2 i ltac:(apply in_seq; lia)). apply andb_prop in H2. destruct H2 as [_ H2].
      rewrite forallb_forall in H2. specialize (H2 j ltac:(apply in_seq; lia)). rewrite E, Nat.eqb_refl in H2.
      apply Nat.eqb_eq. auto.
  - intros (H1 & H2 & H3). split; [auto|]. intros i Hi. apply in_seq in Hi. apply andb_true_iff. split.
    + apply Nat.ltb_lt. apply H2. lia.
    + apply forallb_forall. intros j Hj. apply in_seq in Hj. destruct (Nat.eqb_spec (nth i m 0) (nth j m 0)); [|auto].
      simpl. apply Nat.eqb_eq. apply H3; auto; lia.
Qed.

Definition listed (M : nat) (pi : nat -> nat) : list nat := map pi (seq 0 M).

Lemma listed_nth : forall M pi a, a < M -> nth a (listed M pi) 0 = pi a.
Proof. intros. unfold listed. apply nth_tabulate. auto. Qed.

Lemma listed_perm : forall M pi, renaming M pi -> is_perm M (listed M pi).
Proof.
  intros M pi [R I]. split; [unfold listed; rewrite map_length, seq_length; auto|]. split.
  - intros i Hi. rewrite listed_nth by auto. auto.
  - intros i j Hi Hj E. rewrite !listed_nth in E by auto. auto.
Qed.

Lemma renaming_ext : forall M pi pi', (forall a, a < M -> pi a = pi' a) -> renaming M pi -> renaming M pi'.
Proof.
  intros M pi pi' E [R I]. split.
  - intros a Ha. rewrite <- E by auto. auto.
  - intros a b Ha Hb H. apply I; auto. rewrite !E by auto. auto.
Qed.

Lemma renamed_comp : forall M pi rho t t1 t2, renamed M pi t t1 -> renamed M rho t1 t2 ->
  renamed M (fun a => rho (pi a)) t t2.
Proof.
  intros M pi rho t t1 t2 (_ & F1 & B1) (Ok2 & F2 & B2). split; [auto|]. split; [auto|].
  intros a' b' c' H. apply B2 in H. destruct H as (a & b & c & H & -> & -> & ->).
  apply B1 in H. destruct H as (x & y & z & H & -> & -> & ->). exists x, y, z. auto.
Qed.

Lemma renaming_comp : forall M pi rho, renaming M pi -> renaming M rho -> renaming M (fun a => rho (pi a)).
Proof. intros M pi rho [R1 I1] [R2 I2]. split; auto. Qed.

Lemma minimal_exists : forall M t, 1 <= M -> table_ok M t ->
  exists pi t', renaming M pi /\ renamed M pi t t' /\ minimal M t'.
Proof.
  intros M t HM Ok.
  set (ms := filter (permb M) (lists_of (seq 0 M) M)).
  assert (Hms : forall m, In m ms <-> is_perm M m).
  { intros m. unfold ms. rewrite filter_In, permb_spec. split; [tauto|]. intros H. split; [|auto].
    apply in_lists_of. destruct H as (L & R & _). split; [auto|]. apply Forall_lt_in_seq.
    apply Forall_forall. intros x Hx. apply (In_nth _ _ 0) in Hx. destruct Hx as (i & Hi & <-). apply R. lia. }
  set (w := fun m => num (S M) (permute_pc_act t m M)).
  destruct (LiveGrid.min_in_list (map w ms)) as (v & Hv & Hmin).
  { intros E. assert (Q : In (seq 0 M) ms) by (apply Hms; apply id_perm). destruct ms; [destruct Q|discriminate]. }
  apply in_map_iff in Hv. destruct Hv as (m & Ev & Hm). apply Hms in Hm.
  destruct (permute_renamed M t m HM Ok Hm) as [R1 R2].
  exists (fun a => nth a m 0), (permute_pc_act t m M). split; [auto|]. split; [auto|].
  intros rho t2 Hr Ht2 Hlex.
  pose proof (renaming_comp M _ rho R1 Hr) as R3. pose proof (renamed_comp M _ rho _ _ _ R2 Ht2) as R4.
  set (sg := fun a => rho (nth a m 0)) in *.
  destruct (permute_renamed M t (listed M sg) HM Ok (listed_perm M sg R3)) as [R5 R6].
  assert (E2 : t2 = permute_pc_act t (listed M sg) M).
  { apply (renamed_unique M sg (fun a => nth a (listed M sg) 0) t); auto. intros a Ha. rewrite listed_nth; auto. }
  assert (Hge : v <= w (listed M sg)).
  { apply Hmin. apply in_map. apply Hms. apply listed_perm. auto. }
  assert (Fb : forall x, table_ok M x -> Forall (fun y => y < S M) x).
  { intros x [_ F]. eapply Forall_impl; [|apply F]. intros y Hy. cbv beta in Hy. lia. }
  pose proof (num_lex (S M) t2 (permute_pc_act t m M)) as Q.
  assert (O2 : table_ok M t2) by apply Ht2. assert (O3 : table_ok M (permute_pc_act t m M)) by apply R2.
  specialize (Q ltac:(destruct O2, O3; congruence) (Fb _ O2) (Fb _ O3) Hlex).
  unfold w in Hge, Ev. rewrite <- E2 in Hge. lia.
Qed.

(** * Renaming preserves what matters *)
Section Renamed.
Variables (M : nat) (pi : nat -> nat) (t t' : list nat).
Hypothesis HR : renaming M pi.
Hypothesis Ht : renamed M pi t t'.
Let P := table_protocol M t.
Let Q := table_protocol M t'.

Lemma rn_fwd : forall a b c, P a b c -> Q (pi a) (pi b) (pi c). Proof. apply Ht. Qed.
Lemma rn_inj : forall a b, a < M -> b < M -> pi a = pi b -> a = b. Proof. apply HR. Qed.
Lemma rn_rng : forall a b c, P a b c -> a < M /\ b < M /\ c < M. Proof. apply table_protocol_range. Qed.
Lemma rn_bwd : forall a b c, a < M -> b < M -> c < M -> Q (pi a) (pi b) (pi c) -> P a b c.
Proof.
  intros a b c Ha Hb Hc H. apply Ht in H. destruct H as (x & y & z & H & E1 & E2 & E3).
  destruct (rn_rng x y z H) as (Rx & Ry & Rz).
  apply rn_inj in E1, E2, E3; auto. subst. auto.
Qed.
Lemma rn_pre : forall a b c, Q a b c -> exists x y z, P x y z /\ a = pi x /\ b = pi y /\ c = pi z. Proof. apply Ht. Qed.

Lemma rn_admissible : forall nw, admissible nw P -> admissible nw Q.
Proof.
  intros nw (D & SD & T1 & T2 & W).
  assert (R := rn_rng). assert (I := rn_inj).
  split; [|split; [|split; [|split]]].
  - intros a b c d H1 H2. apply rn_pre in H1, H2.
    destruct H1 as (x & y & z & H1 & -> & -> & ->), H2 as (x' & y' & z' & H2 & E1 & E2 & ->).
    apply R in H1 as R1. apply R in H2 as R2. apply I in E1, E2; try tauto. subst. f_equal. eapply D; eauto.
  - intros a b c d H1 H2. apply rn_pre in H1, H2.
    destruct H1 as (x & y & z & H1 & -> & -> & ->), H2 as (x' & y' & z' & H2 & E1 & E2 & ->).
    apply R in H1 as R1. apply R in H2 as R2. apply I in E1, E2; try tauto. subst. exact (SD _ _ _ _ H1 H2).
  - intros a c [H1 H2]. apply rn_pre in H1, H2.
    destruct H1 as (x & y & z & H1 & E1 & E2 & E3), H2 as (x' & y' & z' & H2 & E4 & E5 & E6).
    apply R in H1 as R1. apply R in H2 as R2.
    assert (x = y) by (apply I; try tauto; congruence). assert (x' = y') by (apply I; try tauto; congruence).
    assert (z = x') by (apply I; try tauto; congruence). assert (z' = x) by (apply I; try tauto; congruence).
    subst. apply (T1 y y'). auto.
  - intros a b [H1 H2]. apply rn_pre in H1, H2.
    destruct H1 as (x & y & z & H1 & E1 & E2 & E3), H2 as (x' & y' & z' & H2 & E4 & E5 & E6).
    apply R in H1 as R1. apply R in H2 as R2.
    assert (x = z) by (apply I; try tauto; congruence). assert (x' = z') by (apply I; try tauto; congruence).
    assert (y = x') by (apply I; try tauto; congruence). assert (y' = x) by (apply I; try tauto; congruence).
    subst. apply (T2 z z'). auto.
  - intros Hn a b c d H1 H2. specialize (W Hn). clear Hn. apply rn_pre in H1, H2.
    destruct H1 as (x & y & z & H1 & -> & -> & ->), H2 as (x' & y' & z' & H2 & E1 & E2 & ->).
    apply R in H1 as R1. apply R in H2 as R2. apply I in E1, E2; try tauto. subst. exact (W _ _ _ _ H1 H2).
Qed.

Lemma rn_continues : forall a b d c e g, continues P (a, b, d) (c, e, g) ->
  continues Q (pi a, pi b, pi d) (pi c, pi e, pi g).
Proof.
  intros a b d c e g (H1 & (x & H2) & (y & H3) & f & H4 & H5). unfold continues.
  split; [apply rn_fwd; auto|]. split; [exists (pi x); apply rn_fwd; auto|]. split; [exists (pi y); apply rn_fwd; auto|].
  exists (pi f). split; apply rn_fwd; auto.
Qed.

Lemma rn_recurs : (forall a b c, P a b c -> recurs P a b) -> forall a b c, Q a b c -> recurs Q a b.
Proof.
  intros H a b c Hq. apply rn_pre in Hq. destruct Hq as (x & y & z & Hp & -> & -> & ->).
  destruct (H x y z Hp) as (d & Hd). exists (pi d).
  assert (G : forall u v, clos_trans _ (continues P) u v ->
    clos_trans _ (continues Q) (let '(a, b, d) := u in (pi a, pi b, pi d)) (let '(a, b, d) := v in (pi a, pi b, pi d))).
  { induction 1 as [[[u1 u2] u3] [[v1 v2] v3] Hs|u v w _ IH1 _ IH2].
    - apply t_step. apply rn_continues. auto.
    - eapply t_trans; eauto. }
  apply (G (x, y, d) (x, y, d)). auto.
Qed.

Lemma rn_torus : forall X m n, torus P X m n -> torus Q (fun s q => pi (X s q)) m n.
Proof.
  intros X m n (H1 & H2 & H3 & H4 & H5). split; [auto|]. split; [auto|]. split; [intros; rewrite H3; auto|].
  split; [intros; rewrite H4; auto|]. intros. apply rn_fwd. auto.
Qed.

(** A block of the renamed protocol comes from a block of the protocol. *)
Lemma rn_block : forall row col, periodic_block Q row col ->
  exists row' col', periodic_block P row' col' /\ length row' = length row /\ length col' = length col.
Proof.
  intros row col (m & n & G & Hm & Hn & Lr & Lc & Gr & Gc & GP).
  assert (HI : exists inv, forall b, b < M -> inv b < M /\ pi (inv b) = b).
  { exists (fun b => match find (fun a => pi a =? b) (seq 0 M) with Some a => a | None => 0 end).
    intros b Hb. destruct (find (fun a => pi a =? b) (seq 0 M)) as [a|] eqn:E.
    - apply List.find_some in E. destruct E as [E1 E2]. apply in_seq in E1. apply Nat.eqb_eq in E2. split; [lia|auto].
    - destruct (surj_of_inj M pi HR b Hb) as (a & Ha & Ea). pose proof (List.find_none _ _ E a ltac:(apply in_seq; lia)) as F.
      cbv beta in F. apply Nat.eqb_neq in F. congruence. }
  destruct HI as (inv & HI).
  (* every value of the block is in range: either inside, or on the border equal to an inside value *)
  assert (HG : forall i j, i <= m -> j <= n -> G i j < M).
  { intros i j Hi Hj.
    assert (Hin : forall i j, i < m -> j < n -> G (S i) (S j) < M).
    { intros i' j' Hi' Hj'. specialize (GP i' j' Hi' Hj'). apply table_protocol_range in GP. tauto. }
    assert (H0 : forall j, 1 <= j <= n -> G 0 j < M).
    { intros j' Hj'. destruct (Gr j' ltac:(lia)) as [E1 E2]. rewrite E1, <- E2.
      replace m with (S (m - 1)) by lia. replace j' with (S (j' - 1)) by lia. apply Hin; lia. }
    assert (H1 : forall i, 1 <= i <= m -> G i 0 < M).
    { intros i' Hi'. destruct (Gc i' ltac:(lia)) as [E1 E2]. rewrite E1, <- E2.
      replace n with (S (n - 1)) by lia. replace i' with (S (i' - 1)) by lia. apply Hin; lia. }
    destruct i, j.
    - destruct (Gr 0 ltac:(lia)) as [E1 E2]. rewrite E1, <- E2. apply H1. lia.
    - apply H0. lia.
    - apply H1. lia.
    - apply Hin; lia. }
  exists (map inv row), (map inv col). rewrite !map_length. split; [|auto].
  exists m, n, (fun i j => inv (G i j)). rewrite !map_length.
  split; [auto|]. split; [auto|]. split; [auto|]. split; [auto|].
  assert (NM : forall l k, k < length l -> nth k (map inv l) 0 = inv (nth k l 0)).
  { intros l k Hk. rewrite (nth_indep _ 0 (inv 0)) by (rewrite map_length; auto). apply map_nth. }
  split; [|split].
  - intros j Hj. rewrite NM by lia. destruct (Gr j Hj) as [-> ->]. auto.
  - intros i Hi. rewrite NM by lia. destruct (Gc i Hi) as [-> ->]. auto.
  - intros i j Hi Hj. specialize (GP i j Hi Hj). pose proof (HG (S i) j ltac:(lia) ltac:(lia)) as R1.
    pose proof (HG i (S j) ltac:(lia) ltac:(lia)) as R2. pose proof (HG (S i) (S j) ltac:(lia) ltac:(lia)) as R3.
    apply rn_bwd; try apply HI; auto.
    destruct (HI _ R1) as [_ ->], (HI _ R2) as [_ ->], (HI _ R3) as [_ ->]. auto.
Qed.
End Renamed.

(** * Minimal tables start with one of the three actions *)
Definition tr (x y v : nat) : nat := if v =? x then y else if v =? y then x else v.

Lemma tr_renaming : forall M x y, x < M -> y < M -> renaming M (tr x y).
Proof.
  intros M x y Hx Hy. unfold tr. split.
  - intros a Ha. destruct (a =? x); [auto|]. destruct (a =? y); auto.
  - intros a b Ha Hb. destruct (Nat.eqb_spec a x), (Nat.eqb_spec b x); try lia;
      destruct (Nat.eqb_spec a y), (Nat.eqb_spec b y); lia.
Qed.

Lemma tr_same : forall x y, tr x y x = y.
Proof. intros. unfold tr. rewrite Nat.eqb_refl. auto. Qed.

Lemma tr_other : forall x y v, v <> x -> v <> y -> tr x y v = v.
Proof. intros. unfold tr. rewrite (proj2 (Nat.eqb_neq v x)), (proj2 (Nat.eqb_neq v y)) by auto. auto. Qed.

Lemma to_012 : forall M a b c, a < M -> b < M -> c < M -> 3 <= M -> a <> b -> a <> c -> b <> c ->
  exists pi, renaming M pi /\ pi a = 0 /\ pi b = 1 /\ pi c = 2.
Proof.
  intros M a b c Ha Hb Hc HM Nab Nac Nbc.
  set (p1 := tr a 0). pose proof (tr_renaming M a 0 Ha ltac:(lia)) as R1. fold p1 in R1.
  set (p2 := fun v => tr (p1 b) 1 (p1 v)).
  assert (R2 : renaming M p2) by (apply (renaming_comp M p1 (tr (p1 b) 1)); auto; apply tr_renaming; [apply R1; auto|lia]).
  set (p3 := fun v => tr (p2 c) 2 (p2 v)).
  assert (R3 : renaming M p3) by (apply (renaming_comp M p2 (tr (p2 c) 2)); auto; apply tr_renaming; [apply R2; auto|lia]).
  assert (A1 : p1 a = 0) by apply tr_same.
  assert (B1 : p1 b <> 0). { rewrite <- A1. intros E. apply R1 in E; auto. }
  assert (A2 : p2 a = 0) by (unfold p2; rewrite A1; apply tr_other; lia).
  assert (B2 : p2 b = 1) by apply tr_same.
  assert (C2 : p2 c <> 0 /\ p2 c <> 1).
  { split; [rewrite <- A2|rewrite <- B2]; intros E; apply R2 in E; auto. }
  exists p3. split; [auto|]. split; [unfold p3; rewrite A2; apply tr_other; lia|].
  split; [unfold p3; rewrite B2; apply tr_other; lia|apply tr_same].
Qed.

Lemma lex_at : forall l l' i, length l = length l' -> i < length l -> (forall j, j < i -> nth j l 0 = nth j l' 0) ->
  nth i l 0 < nth i l' 0 -> lex_less l l'.
Proof.
  intros l l' i L Hi H Hn. exists i. split; [lia|]. split; [|auto].
  apply list_ext_nth with (d := 0); [rewrite !firstn_length; lia|]. rewrite firstn_length. intros j Hj.
  assert (G : forall (x : list nat) k m, k < m -> nth k (firstn m x) 0 = nth k x 0).
  { intros x k m. revert x k. induction m; intros [|y x] [|k] Hk; try lia; simpl; auto. apply IHm. lia. }
  rewrite !G by lia. apply H. lia.
Qed.

Section Minimal.
Variables (M : nat) (t : list nat).
Hypothesis M3 : 3 <= M.
Hypothesis Ok : table_ok M t.
Hypothesis Mi : minimal M t.
Hypothesis SD : self_disabling (table_protocol M t).
Let P := table_protocol M t.

Lemma mi_loop : forall a b, ~ P a b b. Proof. intros a b H. apply (SD a b b b H H). Qed.

Lemma mi_at : forall x, table_ok M x -> forall a b c, a < M -> b < M -> c < M ->
  (table_protocol M x a b c <-> nth (a * M + b) x M = c).
Proof. intros x Okx a b c Ha Hb Hc. rewrite (table_protocol_nth M x) by (auto; apply Okx). tauto. Qed.

Lemma mi_none : forall x, table_ok M x -> forall a b, a < M -> b < M -> (forall c, ~ table_protocol M x a b c) ->
  nth (a * M + b) x M = M.
Proof.
  intros x Okx a b Ha Hb H. pose proof (nth_le M x (a * M + b) Okx) as Q.
  destruct (Nat.eq_dec (nth (a * M + b) x M) M) as [|Hne]; [auto|]. exfalso.
  apply (H (nth (a * M + b) x M)). apply mi_at; auto. lia.
Qed.

Lemma mi_index : forall x i, table_ok M x -> i < M * M -> nth i x 0 = nth i x M.
Proof. intros x i [L _] Hi. apply nth_indep. lia. Qed.

Lemma table_of : forall pi, renaming M pi -> exists t', renamed M pi t t'.
Proof.
  intros pi HR. destruct (permute_renamed M t (listed M pi) ltac:(lia) Ok (listed_perm M pi HR)) as [_ H].
  exists (permute_pc_act t (listed M pi) M). destruct H as (H1 & H2 & H3). split; [auto|]. split.
  - intros a b c Hp. destruct (table_protocol_range M t a b c Hp) as (Ha & Hb & Hc).
    specialize (H2 a b c Hp). rewrite !listed_nth in H2 by auto. auto.
  - intros a b c Hp. destruct (H3 a b c Hp) as (x & y & z & H & E1 & E2 & E3).
    destruct (table_protocol_range M t x y z H) as (Hx & Hy & Hz). rewrite listed_nth in E1, E2, E3 by auto.
    exists x, y, z. auto.
Qed.

Lemma minimal_starts : (exists a b c, P a b c) -> starts P.
Proof.
  assert (Dec : forall (R : nat -> nat -> nat -> bool),
     (exists a b c, P a b c /\ R a b c = true) \/ (forall a b c, P a b c -> R a b c = false)).
  { intros R. set (acts := actions_of_ppgfun t M).
    assert (HA : forall a b c, In (a, b, c) acts <-> P a b c) by (apply actions_of_ppgfun_spec; [lia|apply Ok]).
    destruct (existsb (fun x => let '(a, b, c) := x in R a b c) acts) eqn:E.
    - left. apply existsb_exists in E. destruct E as ([[a b] c] & H1 & H2). exists a, b, c. split; [apply HA|]; auto.
    - right. intros a b c Hp. destruct (R a b c) eqn:Er; auto. apply HA in Hp.
      assert (X : existsb (fun x => let '(a, b, c) := x in R a b c) acts = true).
      { apply existsb_exists. exists (a, b, c). auto. } congruence. }
  assert (MM : M * M >= 9) by nia.
  assert (Lt : length t = M * M) by apply Ok.
  intros (a & b & c & Hp).
  destruct (Dec (fun a b c => a =? b)) as [(x & y & z & Hx & E)|H1].
  { left. apply Nat.eqb_eq in E. subst y. destruct (table_protocol_range M t x x z Hx) as (Rx & _ & Rz).
    assert (Nxz : x <> z) by (intros ->; apply (mi_loop z z Hx)).
    assert (Hy : exists y, y < M /\ y <> x /\ y <> z).
    { destruct x as [|[|x]], z as [|[|z]]; try lia; first [exists 2; lia|exists 1; lia|exists 0; lia]. }
    destruct Hy as (y & Ry & Nyx & Nyz).
    destruct (to_012 M x z y Rx Rz Ry M3) as (pi & HR & E0 & E1 & _); auto.
    destruct (table_of pi HR) as (t' & Ht). pose proof Ht as (Ok' & F & _). apply F in Hx. rewrite E0, E1 in Hx.
    apply (mi_at t' Ok') in Hx; try lia. 
    destruct (nth 0 t M) as [|[|k]] eqn:Ek.
    - exfalso. apply (mi_loop 0 0). apply mi_at; auto; lia.
    - apply mi_at; auto; lia.
    - exfalso. apply (Mi pi t' HR Ht). apply (lex_at t' t 0); [destruct Ok'; lia|destruct Ok'; lia|lia|].
      rewrite (mi_index t'), (mi_index t) by (auto; lia). simpl in Hx. rewrite Hx, Ek. lia. }
  assert (H1' : forall a b, ~ P a a b). { intros x y H. apply H1 in H. rewrite Nat.eqb_refl in H. discriminate. }
  assert (T0 : forall pi t', renaming M pi -> renamed M pi t t' -> nth 0 t' M = M).
  { intros pi t' HR Ht. pose proof Ht as (Ok' & _). change 0 with (0 * M + 0). apply mi_none; auto; try lia. intros v Hv.
    apply Ht in Hv. destruct Hv as (x & y & z & Hv & E1 & E2 & _). 
    destruct (table_protocol_range M t x y z Hv) as (R1 & R2 & _).
    assert (x = y) by (apply HR; auto; congruence). subst y. apply (H1' x z Hv). }
  assert (T0' : nth 0 t M = M).
  { change 0 with (0 * M + 0). apply mi_none; [exact Ok|lia|lia|]. intros v Hv. apply (H1' 0 v Hv). }
  right. destruct (Dec (fun a b c => a =? c)) as [(x & y & z & Hx & E)|H2].
  { left. split; [auto|]. apply Nat.eqb_eq in E. subst z. destruct (table_protocol_range M t x y x Hx) as (Rx & Ry & _).
    assert (Nxy : x <> y) by (intros ->; apply (mi_loop y y Hx)).
    assert (Hw : exists w, w < M /\ w <> x /\ w <> y).
    { destruct x as [|[|x]], y as [|[|y]]; try lia; first [exists 2; lia|exists 1; lia|exists 0; lia]. }
    destruct Hw as (w & Rw & Nwx & Nwy).
    destruct (to_012 M x y w Rx Ry Rw M3) as (pi & HR & E0 & E1 & _); auto.
    destruct (table_of pi HR) as (t' & Ht). pose proof Ht as (Ok' & F & _). apply F in Hx. rewrite E0, E1 in Hx.
    apply (mi_at t' Ok') in Hx; try lia.
    destruct (nth 1 t M) as [|k] eqn:Ek.
    - apply mi_at; auto; lia.
    - exfalso. apply (Mi pi t' HR Ht). apply (lex_at t' t 1); [destruct Ok'; lia|destruct Ok'; lia| |].
      + intros j Hj. assert (j = 0) by lia. subst j. rewrite (mi_index t'), (mi_index t) by (auto; lia).
        rewrite (T0 pi t' HR Ht). auto.
      + rewrite (mi_index t'), (mi_index t) by (auto; lia). simpl in Hx. rewrite Hx, Ek. lia. }
  assert (H2' : forall a b, ~ P a b a). { intros x y H. apply H2 in H. rewrite Nat.eqb_refl in H. discriminate. }
  right. split; [auto|]. split; [auto|]. destruct (table_protocol_range M t a b c Hp) as (Ra & Rb & Rc).
  assert (Nab : a <> b) by (intros ->; apply (H1' b c Hp)).
  assert (Nac : a <> c) by (intros ->; apply (H2' c b Hp)).
  assert (Nbc : b <> c) by (intros ->; apply (mi_loop a c Hp)).
  destruct (to_012 M a b c Ra Rb Rc M3) as (pi & HR & E0 & E1 & E2); auto.
  destruct (table_of pi HR) as (t' & Ht). pose proof Ht as (Ok' & F & _). apply F in Hp. rewrite E0, E1, E2 in Hp.
  apply (mi_at t' Ok') in Hp; try lia.
  destruct (nth 1 t M) as [|[|[|k]]] eqn:Ek.
  - exfalso. apply (H2' 0 1). apply mi_at; auto; lia.
  - exfalso. apply (mi_loop 0 1). apply mi_at; auto; lia.
  - apply mi_at; auto; lia.
  - exfalso. apply (Mi pi t' HR Ht). apply (lex_at t' t 1); [destruct Ok'; lia|destruct Ok'; lia| |].
    + intros j Hj. assert (j = 0) by lia. subst j. rewrite (mi_index t'), (mi_index t) by (auto; lia).
      rewrite (T0 pi t' HR Ht). auto.
    + rewrite (mi_index t'), (mi_index t) by (auto; lia). simpl in Hp. rewrite Hp, Ek. lia.
Qed.
End Minimal.

(** * The actions of a periodic pattern *)
Lemma torus_recurs : forall (P : protocol) X m n, torus P X m n ->
  forall t q, 1 <= t -> recurs P (X (S t) q) (X t (S q)).
Proof.
  intros P X m n (Hm & Hn & Pm & Pn & HP) t q Ht.
  exists (X (S (S t)) (S q)).
  assert (St : forall q, continues P (X (S t) q, X t (S q), X (S (S t)) (S q))
      (X (S t) (S q), X t (S (S q)), X (S (S t)) (S (S q)))).
  { intros r. unfold continues. split; [apply HP|]. split; [exists (X (S (S t)) r); apply HP|]. split.
    - exists (X (t - 1) (S (S r))). replace (X t (S (S r))) with (X (S (t - 1)) (S (S r))) by (f_equal; lia).
      replace (X t (S r)) with (X (S (t - 1)) (S r)) by (f_equal; lia). apply HP.
    - exists (X (S t) (S (S r))). split; apply HP. }
  assert (Ct : forall k, clos_trans _ (continues P) (X (S t) q, X t (S q), X (S (S t)) (S q))
      (X (S t) (q + S k), X t (S (q + S k)), X (S (S t)) (S (q + S k)))).
  { induction k.
    - apply t_step. replace (q + 1) with (S q) by lia. apply St.
    - eapply t_trans; [apply IHk|]. apply t_step. replace (q + S (S k)) with (S (q + S k)) by lia. apply St. }
  specialize (Ct (n - 1)). replace (q + S (n - 1)) with (q + n) in Ct by lia.
  change (S (q + n)) with (S q + n) in Ct. rewrite !Pn in Ct. exact Ct.
Qed.

Section Cover.
Variables (M : nat) (t : list nat) (X : nat -> nat -> nat) (m n : nat).
Hypothesis M0 : M <> 0.
Hypothesis Ok : table_ok M t.
Hypothesis HT : torus (table_protocol M t) X m n.

(** The part of the table the pattern uses. *)
Definition used (p : nat) : bool :=
  existsb (fun s => existsb (fun q => p =? X (S s) q * M + X s (S q)) (seq 0 n)) (seq 0 m).
Definition sub_table : list nat := map (fun p => if used p then nth p t M else M) (seq 0 (M * M)).

Lemma torus_mod : forall s q, X s q = X (s mod m) (q mod n).
Proof.
  destruct HT as (Hm & Hn & Pm & Pn & _). intros s q.
  assert (A : forall k s q, X (s + k * m) q = X s q).
  { induction k; intros s' q'; [rewrite Nat.add_0_r; auto|]. replace (s' + S k * m) with (s' + k * m + m) by lia.
    rewrite Pm. auto. }
  assert (B : forall k s q, X s (q + k * n) = X s q).
  { induction k; intros s' q'; [rewrite Nat.add_0_r; auto|]. replace (q' + S k * n) with (q' + k * n + n) by lia.
    rewrite Pn. auto. }
  rewrite (Nat.div_mod s m ltac:(lia)) at 1. rewrite (Nat.div_mod q n ltac:(lia)) at 1.
  replace (m * (s / m) + s mod m) with (s mod m + (s / m) * m) by lia.
  replace (n * (q / n) + q mod n) with (q mod n + (q / n) * n) by lia. rewrite A, B. auto.
Qed.

Lemma used_at : forall s q, used (X (S s) q * M + X s (S q)) = true.
Proof.
  intros s q. pose proof HT as (Hm & Hn & _). apply existsb_exists. exists (s mod m).
  split; [apply in_seq; pose proof (Nat.mod_upper_bound s m ltac:(lia)); lia|].
  apply existsb_exists. exists (q mod n). split; [apply in_seq; pose proof (Nat.mod_upper_bound q n ltac:(lia)); lia|].
  apply Nat.eqb_eq.
  assert (E1 : X (S s) q = X (S (s mod m)) (q mod n)).
  { rewrite (torus_mod (S s) q), (torus_mod (S (s mod m)) (q mod n)). rewrite Nat.mod_mod by lia.
    f_equal. change (S (s mod m)) with (1 + s mod m). rewrite Nat.add_mod_idemp_r by lia. reflexivity. }
  assert (E2 : X s (S q) = X (s mod m) (S (q mod n))).
  { rewrite (torus_mod s (S q)), (torus_mod (s mod m) (S (q mod n))). rewrite Nat.mod_mod by lia.
    f_equal. change (S (q mod n)) with (1 + q mod n). rewrite Nat.add_mod_idemp_r by lia. reflexivity. }
  rewrite E1, E2. reflexivity.
Qed.

Lemma sub_ok : table_ok M sub_table.
Proof.
  split; [unfold sub_table; rewrite map_length, seq_length; auto|]. unfold sub_table. apply Forall_forall.
  intros x Hx. apply in_map_iff in Hx. destruct Hx as (p & <- & _). destruct (used p); [|lia]. apply nth_le. auto.
Qed.

Lemma sub_spec : forall a b c, table_protocol M sub_table a b c <-> table_protocol M t a b c /\ used (a * M + b) = true.
Proof.
  intros a b c. split.
  - intros H. destruct (table_protocol_range M _ a b c H) as (Ha & Hb & Hc).
    apply (mi_at M sub_table) in H; auto; [|apply sub_ok].
    unfold sub_table in H. rewrite nth_tabulate in H by (apply id2_lt; auto).
    destruct (used (a * M + b)) eqn:E; [|lia]. split; [|auto]. apply mi_at; auto.
  - intros [H E]. destruct (table_protocol_range M _ a b c H) as (Ha & Hb & Hc).
    apply (mi_at M t) in H; auto. apply mi_at; auto; [apply sub_ok|].
    unfold sub_table. rewrite nth_tabulate by (apply id2_lt; auto). rewrite E. auto.
Qed.

Lemma sub_torus : torus (table_protocol M sub_table) X m n.
Proof.
  pose proof HT as (Hm & Hn & Pm & Pn & HP). split; [auto|]. split; [auto|]. split; [auto|]. split; [auto|].
  intros s q. apply sub_spec. split; [auto|]. apply used_at.
Qed.

Lemma sub_recurs : forall a b c, table_protocol M sub_table a b c -> recurs (table_protocol M sub_table) a b.
Proof.
  intros a b c H. pose proof (table_protocol_range M _ a b c H) as (Ha & Hb & Hc). apply sub_spec in H. destruct H as [H E].
  pose proof HT as (Hm & Hn & Pm & Pn & HP).
  apply existsb_exists in E. destruct E as (s & _ & E). apply existsb_exists in E. destruct E as (q & _ & E).
  apply Nat.eqb_eq in E.
  specialize (HP s q). apply table_protocol_range in HP. destruct HP as (R1 & R2 & _).
  assert (E' : id_of2 a b M = id_of2 (X (S s) q) (X s (S q)) M) by exact E.
  apply id2_inj in E'; auto. destruct E' as [-> ->].
  rewrite <- (Pm s (S q)), <- (Pm (S s) q). change (S s + m) with (S (s + m)).
  apply (torus_recurs _ X m n sub_torus). lia.
Qed.
End Cover.

Lemma upto_size : forall M t i j, i < j -> j < M * M -> nth j t M < M -> upto M t i < size M t.
Proof.
  intros M t i j Hij Hj Hn. unfold upto, size.
  assert (Hin : In j (positions M t)).
  { unfold positions. apply filter_In. split; [apply in_seq; lia|]. apply Nat.ltb_lt. auto. }
  revert Hin. generalize (positions M t). intros l.
  assert (Le : forall l, length (filter (fun p => p <=? i) l) <= length l).
  { induction l0 as [|x l0 IH]; simpl; [lia|]. destruct (x <=? i); simpl; lia. }
  induction l as [|x l IH]; intros Hin; [destruct Hin|destruct Hin as [E|H]].
  - subst x. simpl. rewrite (proj2 (Nat.leb_gt j i)) by lia. specialize (Le l). lia.
  - simpl. specialize (IH H). destruct (x <=? i); simpl; lia.
Qed.

Lemma size_le : forall M t, size M t <= M * M.
Proof.
  intros. unfold size, positions. rewrite <- (seq_length (M * M) 0) at 2. generalize (seq 0 (M * M)).
  induction l as [|x l IH]; simpl; [lia|]. destruct (nth x t M <? M); simpl; lia.
Qed.

Lemma no_cut : forall M g depth near t, 1 <= g -> M * M <= depth -> ~ cut_off M g depth near t.
Proof.
  intros M g depth near t Hg Hd (i & H1 & H2 & H3 & H4 & H5 & j & Hj & H6).
  pose proof (upto_size M t i j ltac:(lia) ltac:(lia) H6). pose proof (size_le M t). lia.
Qed.

Lemma cover : forall o t, 3 <= domsz o -> 1 <= max_period o -> exact o -> domsz o * domsz o <= max_depth o ->
  table_ok (domsz o) t -> admissible (nw_disabling o) (table_protocol (domsz o) t) ->
  (exists N, livelock_on (table_protocol (domsz o) t) (domsz o) N) ->
  (forall row col, periodic_block (table_protocol (domsz o) t) row col ->
     S (max_period o) < length row \/ S (max_period o) < length col) ->
  exists p f t' pi, search_all o = Some (p, f) /\ In t' p /\ renaming (domsz o) pi /\
    forall a b c, a < domsz o -> b < domsz o -> c < domsz o ->
      table_protocol (domsz o) t' (pi a) (pi b) (pi c) -> table_protocol (domsz o) t a b c.
Proof.
  intros o t M3 HP1 He Hd Ok Ad (N & HL) HB. set (M := domsz o) in *. assert (M0 : M <> 0) by lia.
  destruct (table_torus M t N Ok (proj1 (proj2 Ad)) HL) as (X & m & n & HT).
  set (s := sub_table M t X m n).
  assert (Oks : table_ok M s) by (apply sub_ok; auto).
  assert (Sub : forall a b c, table_protocol M s a b c -> table_protocol M t a b c) by (intros a b c H; apply (sub_spec M t X m n M0 Ok) in H; tauto).
  assert (Ts : torus (table_protocol M s) X m n) by (apply sub_torus; auto).
  assert (Rs : forall a b c, table_protocol M s a b c -> recurs (table_protocol M s) a b) by (apply sub_recurs; auto).
  assert (As : admissible (nw_disabling o) (table_protocol M s)) by (eapply admissible_sub; eauto).
  destruct (minimal_exists M s ltac:(lia) Oks) as (pi & t' & HR & Ht & Hmin).
  pose proof Ht as (Ok' & _).
  destruct (all_spec o M0 M3) as (p & f & E & _ & _ & Hp & _).
  exists p, f, t', pi. split; [auto|].
  pose proof (rn_admissible M pi s t' HR Ht _ As) as Ad'.
  pose proof (rn_torus M pi s t' Ht X m n Ts) as T'.
  split; [|split; [auto|]].
  - apply Hp; auto.
    + split; [auto|]. split; [auto|]. split; [apply canonical_minimal; auto; lia|]. split.
      * destruct (livelock_semick (max_period o) t' M) as [| |row col] eqn:EV; auto; exfalso.
        -- apply livelock_semick_nil in EV; [|auto|apply Ad'].
           destruct (torus_block _ _ _ _ T') as (row & col & B).
           destruct (block_livelock M _ row col (table_protocol_range M t') B 0) as (K & _ & HK). apply (EV K HK).
        -- pose proof EV as EV'. apply livelock_semick_yes in EV; auto. destruct EV as [B _].
           (* the block reported is within the limit *)
           apply livelock_semick_yes_len in EV'; auto. destruct EV' as [L1 L2].
           destruct (rn_block M pi s t' HR Ht row col B) as (r & c & B' & Lr & Lc).
           assert (Bt : periodic_block (table_protocol M t) r c).
           { destruct B' as (m' & n' & G & G1 & G2 & G3 & G4 & G5 & G6 & G7). exists m', n', G.
             split; [auto|]. split; [auto|]. split; [auto|]. split; [auto|]. split; [auto|]. split; [auto|]. auto. }
           destruct (HB r c Bt); lia.
      * apply (rn_recurs M pi s t' Ht); auto.
    + apply (minimal_starts M t' M3 Ok' Hmin (proj1 (proj2 Ad'))).
      destruct T' as (_ & _ & _ & _ & HP). exists (pi (X 1 0)), (pi (X 0 1)), (pi (X 1 1)). apply HP.
    + apply no_cut; auto.
  - intros a b c Ha Hb Hc H. apply Sub. apply (rn_bwd M pi s t' HR Ht); auto.
Qed.
