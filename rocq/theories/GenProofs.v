(** Sets of actions of the generator: what trimming removes, and the table of a set. *)
From Coq Require Import List Arith Lia Bool.
From Verif Require Import FinLib UniModel UniSpec UniProofs LivelockModel LivelockProofs
  LivelockProofs2 TileModel TileProofs2 GenModel GenSpec.
Import ListNotations.

Definition mem (s : list bool) (i : nat) : Prop := nth i s false = true.

Lemma mem_dec : forall s i, {mem s i} + {~ mem s i}.
Proof. intros. unfold mem. destruct (nth i s false); auto. Qed.

Lemma mem_lt : forall s i, mem s i -> i < length s.
Proof.
  intros s i H. destruct (Nat.lt_ge_cases i (length s)); auto.
  unfold mem in H. rewrite nth_overflow in H by auto. discriminate.
Qed.

Lemma mem_set : forall s i j, mem (upd s i true) j <-> mem s j \/ (j = i /\ i < length s).
Proof.
  intros. unfold mem. rewrite nth_upd. destruct (Nat.eqb_spec j i), (Nat.ltb_spec i (length s)); simpl;
  intuition congruence || lia.
Qed.

Lemma mem_clear : forall s i j, mem (upd s i false) j <-> mem s j /\ j <> i.
Proof.
  intros. unfold mem. rewrite nth_upd. destruct (Nat.eqb_spec j i).
  - subst j. destruct (Nat.ltb_spec i (length s)); simpl.
    + intuition congruence.
    + rewrite nth_overflow by auto. intuition congruence.
  - simpl. tauto.
Qed.

Lemma mem_wipe : forall n j, ~ mem (repeat false n) j.
Proof. intros n j. unfold mem. rewrite nth_repeat'. discriminate. Qed.

Lemma mem_full : forall n j, mem (repeat true n) j <-> j < n.
Proof.
  intros n j. unfold mem. split; intros H.
  - destruct (Nat.lt_ge_cases j n); auto. rewrite nth_overflow in H by (rewrite repeat_length; auto).
    discriminate.
  - rewrite (nth_indep _ false true) by (rewrite repeat_length; auto). apply nth_repeat'.
Qed.

Lemma mem_clears : forall l s j,
  mem (fold_left (fun bt i => upd bt i false) l s) j <-> mem s j /\ ~ In j l.
Proof.
  intros. unfold mem. rewrite fold_clear_nth, andb_true_iff, negb_true_iff.
  assert (E : existsb (Nat.eqb j) l = true <-> In j l).
  { rewrite existsb_exists. split.
    - intros (x & H & E). apply Nat.eqb_eq in E. subst; auto.
    - intros H. exists j. split; auto. apply Nat.eqb_refl. }
  rewrite <- E. destruct (existsb (Nat.eqb j) l); intuition congruence.
Qed.

Lemma mem_mask : forall l n j, mem (id_mask n l) j <-> j < n /\ In j l.
Proof.
  intros l n j. unfold id_mask, mem.
  assert (G : forall l s, nth j (fold_left (fun bt i => upd bt i true) l s) false = true <->
     nth j s false = true \/ (j < length s /\ In j l)).
  { induction l0 as [|x l0 IH]; intros s; cbn [fold_left].
    - split; [auto|]. intros [H|[_ []]]; auto.
    - rewrite IH, upd_length. change (nth j (upd s x true) false = true) with (mem (upd s x true) j).
      rewrite mem_set. unfold mem. cbn [In]. intuition (subst; auto). }
  rewrite G, repeat_length, nth_repeat'. intuition discriminate.
Qed.

Lemma mem_ones : forall s i, In i (ones s) <-> mem s i.
Proof.
  intros. unfold ones. rewrite filter_In, in_seq. split.
  - tauto.
  - intros H. split; auto. pose proof (mem_lt _ _ H). lia.
Qed.

Lemma mem_union : forall s s' i, length s = length s' -> (mem (union s s') i <-> mem s i \/ mem s' i).
Proof.
  induction s as [|x s IH]; intros [|y s'] i L; simpl in L; try lia.
  - simpl. unfold mem. tauto.
  - cbn [union]. destruct i; unfold mem in *; cbn [nth].
    + apply orb_true_iff.
    + apply IH. lia.
Qed.

Lemma union_length : forall s s', length s = length s' -> length (union s s') = length s.
Proof. induction s as [|x s IH]; intros [|y s'] L; simpl in *; try lia. rewrite IH; lia. Qed.

Lemma set_ext : forall s s', length s = length s' -> (forall i, mem s i <-> mem s' i) -> s = s'.
Proof.
  intros s s' L H. apply (list_ext_nth _ s s' false); auto. intros i _. specialize (H i). unfold mem in H.
  destruct (nth i s false), (nth i s' false); intuition congruence.
Qed.

Section Sets.
Variable M : nat.
Hypothesis M0 : M <> 0.
Let N := M * M * M.
Notation inn := (in_set M).

Lemma inn_mem : forall s a b c, length s = N ->
  (inn s a b c <-> a < M /\ b < M /\ c < M /\ mem s (id_of3 a b c M)).
Proof.
  intros s a b c L. split.
  - intros H. pose proof H as (Ha & Hb & Hc & _). repeat split; auto. apply in_set_nth in H; auto.
  - intros (Ha & Hb & Hc & H). apply in_set_nth; auto.
Qed.

Lemma mem_inn : forall s i, length s = N -> mem s i ->
  exists a b c, inn s a b c /\ uniact_of_id i M = (a, b, c) /\ i = id_of3 a b c M.
Proof.
  intros s i L H. pose proof (mem_lt _ _ H) as Hi. rewrite L in Hi.
  pose proof (uniact_of_id_range M i Hi) as R. destruct (uniact_of_id i M) as [[a b] c].
  destruct R as (Ha & Hb & Hc & E). exists a, b, c. repeat split; auto.
  apply (inn_mem s a b c L). subst i. auto.
Qed.

Definition trip (i : nat) : nat * nat * nat := uniact_of_id i M.

(** Which action the trimming for (a,b,c) removes. *)
Definition conf (nw : bool) (x y : nat * nat * nat) : Prop :=
  let '(a, b, c) := x in let '(a', b', c') := y in
  (a = b /\ a' = c /\ b' = c /\ c' = a) \/
  (a = c /\ a' = b /\ b' = a /\ c' = b) \/
  (a' = a /\ b' = b) \/ (a' = a /\ b' = c) \/ (a' = a /\ c' = b) \/
  (nw = true /\ ((a' = c /\ b' = b) \/ (b' = b /\ c' = a))).

Lemma subtract_spec : forall s ma mb mc a b c, length s = N -> a < M -> b < M -> c < M ->
  (mem (subtract_action_mask s (ma, mb, mc) M) (id_of3 a b c M) <->
   mem s (id_of3 a b c M) /\ ~ ((ma = M \/ ma = a) /\ (mb = M \/ mb = b) /\ (mc = M \/ mc = c))).
Proof.
  intros s ma mb mc a b c L Ha Hb Hc. unfold subtract_action_mask. rewrite mem_clears.
  assert (E : In (id_of3 a b c M) (mask_ids (ma, mb, mc) M) <->
     ((ma = M \/ ma = a) /\ (mb = M \/ mb = b) /\ (mc = M \/ mc = c))).
  { rewrite in_mask_ids. split.
    - intros (a' & b' & c' & H1 & H2 & H3 & H4 & H5 & H6 & E). apply id3_inj in E; auto.
      destruct E as (-> & -> & ->). auto.
    - intros (H1 & H2 & H3). exists a, b, c. auto 10. }
  rewrite E. tauto.
Qed.

Lemma subtract_length : forall s m, length (subtract_action_mask s m M) = length s.
Proof. intros s [[ma mb] mc]. unfold subtract_action_mask. apply fold_clear_length. Qed.

Lemma trim_length : forall s i nw, length (trim_coexist s i M nw) = length s.
Proof.
  intros. unfold trim_coexist. destruct (uniact_of_id i M) as [[a b] c]. cbv zeta.
  destruct (a =? b), (a =? c), nw; cbn [negb]; rewrite ?subtract_length; reflexivity.
Qed.

Lemma trim_spec : forall s i nw a b c x, length s = N -> i < N -> uniact_of_id i M = x ->
  a < M -> b < M -> c < M ->
  (mem (trim_coexist s i M nw) (id_of3 a b c M) <-> mem s (id_of3 a b c M) /\ ~ conf nw x (a, b, c)).
Proof.
  intros s i nw a' b' c' [[a b] c] L Hi E Ha Hb Hc. unfold trim_coexist. rewrite E. cbv zeta.
  pose proof (uniact_of_id_range M i Hi) as R. rewrite E in R. destruct R as (Ra & Rb & Rc & _).
  assert (X : forall b s p, length s = N ->
    (mem (if b : bool then subtract_action_mask s p M else s) (id_of3 a' b' c' M) <->
     mem s (id_of3 a' b' c' M) /\ ~ (b = true /\ let '(ma, mb, mc) := p in
        (ma = M \/ ma = a') /\ (mb = M \/ mb = b') /\ (mc = M \/ mc = c')))).
  { intros bb s0 [[ma mb] mc] L0. destruct bb; [rewrite subtract_spec by auto|]; intuition congruence. }
  assert (XL : forall b s p, length (if b : bool then subtract_action_mask s p M else s) = length s).
  { intros bb s0 p. destruct bb; auto. apply subtract_length. }
  unfold conf. destruct nw; cbn [negb];
  rewrite !subtract_spec by (auto; rewrite ?subtract_length, ?XL; auto);
  rewrite !X by (rewrite ?XL; auto); rewrite !Nat.eqb_eq; intuition (subst; try lia).
Qed.

Lemma conf_sym : forall nw x y, conf nw x y -> conf nw y x.
Proof. intros nw [[a b] c] [[a' b'] c']. unfold conf. intuition (subst; auto 12). Qed.

(** Admissibility as a property of pairs. *)
Lemma admissible_pairs : forall nw P, admissible nw P <->
  (forall a b c, P a b c -> b <> c) /\ (nw = true -> forall a b c, P a b c -> a <> c) /\
  forall a b c a' b' c', P a b c -> P a' b' c' -> (a, b, c) <> (a', b', c') ->
    ~ conf nw (a, b, c) (a', b', c').
Proof.
  intros nw P. split.
  - intros (D & S & T1 & T2 & W). split; [|split].
    + intros a b c H E. subst c. apply (S a b b b); auto.
    + intros -> a b c H E. subst c. apply (W eq_refl a b a a); auto.
    + intros a b c a' b' c' H H' Hne HC. unfold conf in HC.
      destruct HC as [(-> & -> & -> & ->)|[(-> & -> & -> & ->)|[(-> & ->)|[(-> & ->)|[(-> & ->)|(Hn & HC)]]]]].
      * apply (T1 b c); auto.
      * apply (T2 c b); auto.
      * apply Hne. rewrite (D a b c c'); auto.
      * apply (S a b c c'); auto.
      * apply (S a b' b c); auto.
      * destruct HC as [(-> & ->)|(-> & ->)]; [apply (W Hn a b c c')|apply (W Hn a' b a c)]; auto.
  - intros (B1 & B2 & HP). 
    assert (X : forall a b c a' b' c', P a b c -> P a' b' c' -> conf nw (a, b, c) (a', b', c') ->
       a = a' /\ b = b' /\ c = c').
    { intros a b c a' b' c' H H' HC.
      destruct (Nat.eq_dec a a'), (Nat.eq_dec b b'), (Nat.eq_dec c c'); auto;
      exfalso; apply (HP a b c a' b' c' H H'); auto; congruence. }
    split; [|split; [|split; [|split]]].
    + intros a b c d H H'. destruct (X a b c a b d) as (_ & _ & E); auto. unfold conf. tauto.
    + intros a b c d H H'. destruct (X a b c a c d) as (_ & E & _); auto; [unfold conf; tauto|].
      apply (B1 a b c H E).
    + intros a c (H & H'). destruct (X a a c c c a) as (E & _); auto; [unfold conf; tauto|].
      apply (B1 a a c H E).
    + intros a b (H & H'). destruct (X a b a b a b) as (E & _); auto; [unfold conf; tauto|].
      subst. apply (B1 b b b H eq_refl).
    + intros Hn a b c d H H'. destruct (X a b c c b d) as (E & _); auto; [unfold conf; tauto|].
      apply (B2 Hn a b c H E).
Qed.

Lemma admissible_sub : forall nw (P Q : protocol), (forall a b c, P a b c -> Q a b c) ->
  admissible nw Q -> admissible nw P.
Proof.
  intros nw P Q H (D & S & T1 & T2 & W). split; [|split; [|split; [|split]]].
  - intros a b c d H1 H2. apply (D a b c d); auto.
  - intros a b c d H1 H2. apply (S a b c d); auto.
  - intros a c (H1 & H2). apply (T1 a c); auto.
  - intros a b (H1 & H2). apply (T2 a b); auto.
  - intros Hn a b c d H1 H2. apply (W Hn a b c d); auto.
Qed.

(** Adding one action. *)
Lemma admissible_add : forall nw (P Q : protocol) x y z,
  (forall a b c, Q a b c <-> P a b c \/ (a, b, c) = (x, y, z)) ->
  admissible nw P -> y <> z -> (nw = true -> x <> z) ->
  (forall a b c, P a b c -> ~ conf nw (a, b, c) (x, y, z)) -> admissible nw Q.
Proof.
  intros nw P Q x y z HQ HP B1 B2 HC. apply admissible_pairs in HP. destruct HP as (P1 & P2 & P3).
  apply admissible_pairs. split; [|split].
  - intros a b c H. apply HQ in H. destruct H as [H|H]; [eauto|congruence].
  - intros Hn a b c H. apply HQ in H. destruct H as [H|H]; [eauto|]. injection H as -> -> ->. auto.
  - intros a b c a' b' c' H H' Hne. apply HQ in H, H'. destruct H as [H|H], H' as [H'|H'].
    + auto.
    + injection H' as -> -> ->. auto.
    + injection H as -> -> ->. intros X. apply conf_sym in X. apply (HC a' b' c'); auto.
    + congruence.
Qed.

(** The table of a set. *)
Lemma tab_spec : forall s, length s = N -> deterministic (inn s) ->
  table_ok M (ppgfun_of_actset s M) /\
  forall a b c, table_protocol M (ppgfun_of_actset s M) a b c <-> inn s a b c.
Proof.
  intros s L D. rewrite ppgfun_of_actset_as_acts by auto.
  assert (HI : forall a b c, In (a, b, c) (actions_of_actset s M) <-> inn s a b c).
  { intros. rewrite actions_of_actset_spec by auto. unfold in_set, id_of3. tauto. }
  assert (HF : Forall (act_range M) (actions_of_actset s M)).
  { apply Forall_forall. intros [[a b] c] H. apply HI in H. destruct H as (? & ? & ? & _). simpl. auto. }
  split; [apply ppgfun_of_acts_ok; auto|]. intros a b c. rewrite ppgfun_of_acts_spec; auto.
  intros a' b' c' d' H1 H2. apply HI in H1, H2. apply (D a' b'); auto.
Qed.

Lemma ppg_inn : forall s a b, length s = N -> deterministic (inn s) -> a < M -> b < M ->
  let c := ppg (ppgfun_of_actset s M) M a b in
  (c < M /\ inn s a b c) \/ (c = M /\ forall x, ~ inn s a b x).
Proof.
  intros s a b L D Ha Hb c. destruct (tab_spec s L D) as [Ok HT].
  pose proof (ppg_le M (ppgfun_of_actset s M) a b Ok) as Hle. fold c in Hle.
  destruct (Nat.eq_dec c M) as [E|E].
  - right. split; auto. intros x Hx. apply HT in Hx. apply (protocol_ppg M) in Hx; auto. fold c in Hx. lia.
  - left. split; [lia|]. apply HT. apply (ppg_protocol M); auto.
Qed.

(** Set of a table. *)
Lemma set_of_tab : forall t, table_ok M t ->
  length (actset_of_ppgfun t M) = N /\ ppgfun_of_actset (actset_of_ppgfun t M) M = t /\
  forall a b c, inn (actset_of_ppgfun t M) a b c <-> table_protocol M t a b c.
Proof.
  intros t Ok. pose proof Ok as [L _]. split; [apply actset_of_ppgfun_length; auto|].
  split; [apply ppgfun_of_actset_of_ppgfun; auto|]. intros a b c.
  rewrite inn_mem by (apply actset_of_ppgfun_length; auto). split.
  - intros (Ha & Hb & Hc & H). apply actset_of_ppgfun_spec; auto. rewrite <- H.
    apply nth_error_nth'. rewrite actset_of_ppgfun_length by auto. apply id3_lt; auto.
  - intros H. pose proof H as (Ha & Hb & Hc & _). repeat split; auto.
    apply actset_of_ppgfun_spec in H; auto. unfold mem. apply nth_error_nth; auto.
Qed.

Lemma set_of_set : forall s, length s = N -> deterministic (inn s) ->
  actset_of_ppgfun (ppgfun_of_actset s M) M = s.
Proof.
  intros s L D. destruct (tab_spec s L D) as [Ok HT].
  destruct (set_of_tab _ Ok) as (L' & _ & HS).
  apply set_ext; [congruence|]. intros i. split; intros H.
  - destruct (mem_inn _ _ L' H) as (a & b & c & H1 & _ & ->). apply HS, HT in H1.
    apply inn_mem in H1; auto. tauto.
  - destruct (mem_inn _ _ L H) as (a & b & c & H1 & _ & ->). apply HT, HS in H1.
    apply inn_mem in H1; auto. tauto.
Qed.
End Sets.
