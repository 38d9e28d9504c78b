From Coq Require Import List Arith Lia Bool.
From Verif Require Import FinLib UniModel UniSpec UniProofs LivelockProofs Radix CanonModel CanonSpec.
Import ListNotations.

Lemma lex_ltb_spec : forall l l', length l = length l' -> (lex_ltb l l' = true <-> lex_less l l').
Proof.
  induction l as [|x l IH]; intros [|y l'] L; simpl in L; try lia.
  - simpl. split; [discriminate|]. intros (i & Hi & _). simpl in Hi. lia.
  - cbn [lex_ltb]. rewrite orb_true_iff, andb_true_iff, Nat.ltb_lt, Nat.eqb_eq, IH by lia. split.
    + intros [H|[-> (i & Hi & HF & HN)]].
      * exists 0. simpl. repeat split; auto. lia.
      * exists (S i). simpl. repeat split; auto; [lia|]. f_equal. auto.
    + intros ([|i] & Hi & HF & HN); simpl in *; auto.
      injection HF as -> HF. right. split; auto. exists i. repeat split; auto. lia.
Qed.

(** ** The maps are permutations *)
Definition is_perm (M : nat) (m : list nat) : Prop :=
  length m = M /\ (forall i, i < M -> nth i m 0 < M) /\
  (forall i j, i < M -> j < M -> nth i m 0 = nth j m 0 -> i = j).

Lemma swap_nth : forall m i v k, i < length m -> v < length m ->
  nth k (swap m i v) 0 = if k =? v then nth i m 0 else if k =? i then nth v m 0 else nth k m 0.
Proof.
  intros m i v k Hi Hv. unfold swap. rewrite !nth_upd, upd_length.
  apply Nat.ltb_lt in Hi, Hv. rewrite Hi, Hv, !andb_true_r. auto.
Qed.

Lemma swap_perm : forall M m i v, is_perm M m -> i < M -> v < M -> is_perm M (swap m i v).
Proof.
  intros M m i v (L & R & I) Hi Hv. split; [unfold swap; rewrite !upd_length; auto|].
  assert (Hn := fun k => swap_nth m i v k ltac:(lia) ltac:(lia)). split.
  - intros k Hk. rewrite Hn. destruct (k =? v), (k =? i); auto.
  - intros j k Hj Hk. rewrite !Hn.
    destruct (Nat.eqb_spec j v), (Nat.eqb_spec k v), (Nat.eqb_spec j i), (Nat.eqb_spec k i);
      subst; intros E; auto; try (apply I in E; auto; try lia; subst; congruence).
Qed.

Lemma swaps_perm : forall M vals i m, is_perm M m -> i + length vals <= M ->
  Forall (fun v => v < M) vals -> is_perm M (swaps i vals m).
Proof.
  induction vals as [|v vals IH]; intros i m P L F; simpl in *; auto.
  inversion F; subst. apply IH; auto; [|lia]. apply swap_perm; auto. lia.
Qed.

Lemma id_perm : forall M, is_perm M (seq 0 M).
Proof.
  intros M. split; [apply seq_length|]. split; intros i.
  - intros H. rewrite seq_nth; lia.
  - intros j Hi Hj. rewrite !seq_nth by auto. auto.
Qed.

Lemma Forall2_lt_seq : forall n vals s B, Forall2 lt vals (seq s n) -> s + n <= S B ->
  length vals = n /\ Forall (fun v => v < B) vals.
Proof.
  induction n; intros vals s B H HB; simpl in H; inversion H; subst; [auto|].
  apply (IHn _ _ B) in H4; [|lia]. destruct H4. simpl. split; auto. constructor; auto. lia.
Qed.

Lemma perm_map_perm : forall M idx, 1 <= M -> idx < prod (perm_doms M) -> is_perm M (perm_map M idx).
Proof.
  intros M idx HM H. apply state_of_index_spec in H. destruct H as [H _].
  unfold perm_doms in H. apply (Forall2_lt_seq _ _ _ M) in H; [|lia]. destruct H as [L F].
  unfold perm_map, perm_doms. apply swaps_perm; auto; [apply id_perm|]. lia.
Qed.

(** ** Permuted tables *)
Definition rename_act (m : list nat) (act : UniAct) : UniAct :=
  let '(a, b, c) := act in (nth a m 0, nth b m 0, nth c m 0).

Lemma permute_alt : forall choice m M, 1 <= M ->
  permute_pc_act choice m M = ppgfun_of_acts (map (rename_act m) (actions_of_ppgfun choice M)) M.
Proof.
  intros choice m M HM. unfold permute_pc_act, ppgfun_of_acts, actions_of_ppgfun.
  replace (M =? 0) with false by (symmetry; apply Nat.eqb_neq; lia).
  generalize (repeat M (M * M)). generalize (seq 0 M) at 2 4 as l1.
  induction l1 as [|a l1 IH]; intros t; [reflexivity|]. cbn [fold_left flat_map].
  rewrite map_app, fold_left_app. rewrite <- IH. f_equal. clear IH.
  revert t. generalize (seq 0 M). induction l as [|b l IH]; intros t; [reflexivity|].
  cbn [fold_left flat_map]. rewrite map_app, fold_left_app. rewrite <- IH. f_equal.
  destruct (nth (id_of2 a b M) choice M <? M); reflexivity.
Qed.

Lemma permute_renamed : forall M choice m, 1 <= M -> table_ok M choice -> is_perm M m ->
  renaming M (fun a => nth a m 0) /\
  renamed M (fun a => nth a m 0) choice (permute_pc_act choice m M).
Proof.
  intros M choice m HM Hok (L & R & I). split; [split; auto|].
  rewrite permute_alt by auto.
  set (acts := map (rename_act m) (actions_of_ppgfun choice M)).
  assert (HI : forall a' b' c', In (a', b', c') acts <->
     exists a b c, table_protocol M choice a b c /\ a' = nth a m 0 /\ b' = nth b m 0 /\ c' = nth c m 0).
  { intros a' b' c'. unfold acts. rewrite in_map_iff. split.
    - intros ([[a b] c] & E & H). injection E as <- <- <-.
      apply actions_of_ppgfun_spec in H; [|lia|apply Hok]. exists a, b, c. auto.
    - intros (a & b & c & H & -> & -> & ->). exists (a, b, c). split; auto.
      apply actions_of_ppgfun_spec; [lia|apply Hok|auto]. }
  assert (HF : Forall (act_range M) acts).
  { apply Forall_forall. intros [[a' b'] c'] H. apply HI in H.
    destruct H as (a & b & c & H & -> & -> & ->). apply table_protocol_range in H.
    destruct H as (Ha & Hb & Hc). repeat split; auto. }
  assert (HD : deterministic (fun a b c => In (a, b, c) acts)).
  { intros a' b' c' d' H1 H2. apply HI in H1, H2.
    destruct H1 as (a1 & b1 & c1 & H1 & Ea & Eb & ->), H2 as (a2 & b2 & c2 & H2 & Ea' & Eb' & ->).
    pose proof (table_protocol_range _ _ _ _ _ H1) as (? & ? & ?).
    pose proof (table_protocol_range _ _ _ _ _ H2) as (? & ? & ?).
    assert (a1 = a2) by (apply I; auto; congruence). assert (b1 = b2) by (apply I; auto; congruence).
    subst. apply protocol_ppg in H1, H2; auto. destruct H1 as (_ & _ & _ & <-), H2 as (_ & _ & _ & <-). auto. }
  split; [apply ppgfun_of_acts_ok; auto; lia|].
  split.
  - intros a b c H. apply ppgfun_of_acts_spec; auto; [lia|]. apply HI. exists a, b, c. auto.
  - intros a' b' c' H. apply ppgfun_of_acts_spec in H; auto; [|lia]. apply HI in H. auto.
Qed.

Lemma canonical_minimal : forall M t, 1 <= M -> table_ok M t -> minimal M t -> canonical_ck t M = true.
Proof.
  intros M t HM Hok Hmin. unfold canonical_ck. apply forallb_forall. intros idx Hi.
  apply in_seq in Hi. rewrite negb_true_iff.
  destruct (lex_ltb _ _) eqn:E; auto. exfalso.
  destruct (permute_renamed M t (perm_map M idx) HM Hok) as [H1 H2].
  { apply perm_map_perm; auto. lia. }
  apply (Hmin _ _ H1 H2). apply lex_ltb_spec; auto.
  destruct H2 as [[L _] _]. destruct Hok as [L' _]. congruence.
Qed.

(** A renamed table is determined by the renaming. *)
Lemma surj_of_inj : forall M pi, renaming M pi -> forall a', a' < M -> exists a, a < M /\ pi a = a'.
Proof.
  intros M pi [R I] a' Ha'.
  assert (HN : NoDup (map pi (seq 0 M))).
  { assert (HG : forall l, NoDup l -> (forall x, In x l -> x < M) -> NoDup (map pi l)).
    { induction 1 as [|x l Hx HN IH]; intros Hl; [constructor|]. simpl. constructor.
      - intros Hin. apply in_map_iff in Hin. destruct Hin as (y & E & Hy).
        apply I in E; [subst; auto|apply Hl; right; auto|apply Hl; left; auto].
      - apply IH. intros y Hy. apply Hl. right; auto. }
    apply HG; [apply seq_NoDup|]. intros x Hx. apply in_seq in Hx. lia. }
  assert (HI : incl (seq 0 M) (map pi (seq 0 M))).
  { apply NoDup_length_incl; auto; [rewrite map_length; auto|].
    intros x Hx. apply in_map_iff in Hx. destruct Hx as (y & <- & Hy). apply in_seq in Hy. apply in_seq.
    split; [lia|]. simpl. apply R. lia. }
  specialize (HI a' ltac:(apply in_seq; lia)). apply in_map_iff in HI.
  destruct HI as (a & E & Ha). apply in_seq in Ha. exists a. split; auto. lia.
Qed.

Lemma renamed_unique : forall M pi pi' t t1 t2, table_ok M t -> renaming M pi ->
  (forall a, a < M -> pi a = pi' a) ->
  renamed M pi t t1 -> renamed M pi' t t2 -> t1 = t2.
Proof.
  intros M pi pi' t t1 t2 Hok HR HE (Ok1 & F1 & B1) (Ok2 & F2 & B2).
  pose proof Ok1 as [L1 _]. pose proof Ok2 as [L2 _].
  assert (HP : forall a b c, table_protocol M t1 a b c <-> table_protocol M t2 a b c).
  { intros a b c. split; intros H.
    - apply B1 in H. destruct H as (x & y & z & H & -> & -> & ->).
      pose proof (table_protocol_range _ _ _ _ _ H) as (? & ? & ?).
      rewrite !HE by auto. apply F2; auto.
    - apply B2 in H. destruct H as (x & y & z & H & -> & -> & ->).
      pose proof (table_protocol_range _ _ _ _ _ H) as (? & ? & ?).
      rewrite <- !HE by auto. apply F1; auto. }
  apply list_ext_nth with (d := M); [congruence|]. intros i Hi. rewrite L1 in Hi.
  pose proof (unistep_of_id_range M i Hi) as HU. destruct (unistep_of_id i M) as [a b].
  destruct HU as (Ha & Hb & <-).
  pose proof (ppg_le M t1 a b Ok1) as Hl1. pose proof (ppg_le M t2 a b Ok2) as Hl2.
  unfold LivelockModel.ppg in *.
  set (v1 := nth (id_of2 a b M) t1 M) in *. set (v2 := nth (id_of2 a b M) t2 M) in *.
  assert (H1 : forall c, c < M -> (v1 = c <-> v2 = c)).
  { intros c Hc. specialize (HP a b c). rewrite !table_protocol_nth in HP by auto.
    fold v1 v2 in HP. tauto. }
  destruct (Nat.eq_dec v1 M) as [E|E].
  - destruct (Nat.eq_dec v2 M); [congruence|]. specialize (H1 v2 ltac:(lia)). lia.
  - specialize (H1 v1 ltac:(lia)). lia.
Qed.

(** If every renaming were enumerated the check would be exact. *)
Lemma accepted_not_improved : forall M t idx pi t', 1 <= M -> table_ok M t ->
  canonical_ck t M = true -> idx < prod (perm_doms M) ->
  (forall a, a < M -> nth a (perm_map M idx) 0 = pi a) ->
  renaming M pi -> renamed M pi t t' -> ~ lex_less t' t.
Proof.
  intros M t idx pi t' HM Hok HC Hi HE HR HT HL.
  unfold canonical_ck in HC. rewrite forallb_forall in HC.
  specialize (HC idx ltac:(apply in_seq; lia)). rewrite negb_true_iff in HC.
  destruct (permute_renamed M t (perm_map M idx) HM Hok) as [H1 H2]; [apply perm_map_perm; auto|].
  assert (permute_pc_act t (perm_map M idx) M = t').
  { eapply renamed_unique with (pi := fun a => nth a (perm_map M idx) 0); eauto. }
  rewrite H in HC. apply lex_ltb_spec in HL; [congruence|].
  destruct HT as [[L _] _]. destruct Hok as [L' _]. congruence.
Qed.

Lemma canonical_two : forall M t, 1 <= M <= 2 -> table_ok M t -> canonical_ck t M = true -> minimal M t.
Proof.
  intros M t HM Hok HC pi t' HR HT.
  assert (HX : exists idx, idx < prod (perm_doms M) /\ forall a, a < M -> nth a (perm_map M idx) 0 = pi a).
  { destruct HR as [R I]. assert (M = 1 \/ M = 2) as [->| ->] by lia.
    - exists 0. split; [simpl; lia|]. intros a Ha. replace a with 0 by lia.
      specialize (R 0 ltac:(lia)). change (nth 0 (perm_map 1 0) 0) with 0. lia.
    - pose proof (R 0 ltac:(lia)). pose proof (R 1 ltac:(lia)).
      assert (pi 0 <> pi 1) by (intros E; apply I in E; lia).
      destruct (Nat.eq_dec (pi 0) 0).
      + exists 0. split; [simpl; lia|]. intros [|[|a]] Ha; try lia.
        * change (nth 0 (perm_map 2 0) 0) with 0. lia.
        * change (nth 1 (perm_map 2 0) 0) with 1. lia.
      + exists 1. split; [simpl; lia|]. intros [|[|a]] Ha; try lia.
        * change (nth 0 (perm_map 2 1) 0) with 1. lia.
        * change (nth 1 (perm_map 2 1) 0) with 0. lia. }
  destruct HX as (idx & Hi & HE). apply (accepted_not_improved M t idx pi t'); auto; lia.
Qed.

(** Exchanging two values: enumerated when both are below M-1, or when they are
    the last two. *)
Lemma swaps_ident : forall n i m, i + n <= length m -> swaps i (seq i n) m = m.
Proof.
  induction n; intros i m H; [reflexivity|]. cbn [seq swaps].
  assert (E : swap m i i = m).
  { unfold swap. rewrite upd_same. apply upd_same. }
  rewrite E. apply IHn. lia.
Qed.

Lemma swaps_app : forall l1 l2 i m, swaps i (l1 ++ l2) m = swaps (i + length l1) l2 (swaps i l1 m).
Proof.
  induction l1 as [|v l1 IH]; intros l2 i m; simpl; [rewrite Nat.add_0_r; auto|].
  rewrite IH. f_equal. lia.
Qed.

Lemma Forall2_seq_lt : forall n a b, a < b -> Forall2 lt (seq a n) (seq b n).
Proof. induction n; intros; simpl; constructor; auto. apply IHn. lia. Qed.

Lemma transposition_idx : forall M i v, i < M - 1 -> v <= i + 1 ->
  exists idx, idx < prod (perm_doms M) /\ perm_map M idx = swap (seq 0 M) i v.
Proof.
  intros M i v Hi Hv.
  set (vals := seq 0 i ++ v :: seq (S i) (M - 2 - i)).
  assert (HV : Forall2 lt vals (perm_doms M)).
  { unfold perm_doms, vals. replace (M - 1) with (i + S (M - 2 - i)) by lia.
    rewrite seq_app. apply Forall2_app; [apply Forall2_seq_lt; lia|].
    simpl. constructor; [lia|]. apply Forall2_seq_lt. lia. }
  exists (index_of_state vals (perm_doms M)). split; [apply index_lt; auto|].
  unfold perm_map. rewrite state_of_index_of_state by auto. unfold vals.
  rewrite swaps_app, seq_length. rewrite swaps_ident by (rewrite seq_length; lia).
  cbn [Nat.add swaps]. apply swaps_ident. unfold swap. rewrite !upd_length, seq_length. lia.
Qed.

Definition transposition (p q a : nat) : nat := if a =? p then q else if a =? q then p else a.

Lemma canonical_transposition : forall M t p q t', table_ok M t -> canonical_ck t M = true ->
  p < q -> (q < M - 1 \/ (q = M - 1 /\ p + 1 = q)) ->
  renamed M (transposition p q) t t' -> ~ lex_less t' t.
Proof.
  intros M t p q t' Hok HC Hpq Hq HT.
  assert (HX : exists idx, idx < prod (perm_doms M) /\
     forall a, a < M -> nth a (perm_map M idx) 0 = transposition p q a).
  { destruct Hq as [Hq|[Hq Hp]].
    - destruct (transposition_idx M q p ltac:(lia) ltac:(lia)) as (idx & Hi & E).
      exists idx. split; auto. intros a Ha. rewrite E, swap_nth by (rewrite seq_length; lia).
      rewrite !seq_nth by lia. unfold transposition. simpl.
      destruct (a =? p), (a =? q); auto.
    - destruct (transposition_idx M p q ltac:(lia) ltac:(lia)) as (idx & Hi & E).
      exists idx. split; auto. intros a Ha. rewrite E, swap_nth by (rewrite seq_length; lia).
      rewrite !seq_nth by lia. unfold transposition. simpl.
      destruct (Nat.eqb_spec a p), (Nat.eqb_spec a q); auto; lia. }
  destruct HX as (idx & Hi & HE). apply (accepted_not_improved M t idx (transposition p q)); auto; [lia|].
  split.
  - intros a Ha. unfold transposition. destruct (a =? p), (a =? q); lia.
  - intros a b Ha Hb. unfold transposition.
    destruct (Nat.eqb_spec a p), (Nat.eqb_spec a q), (Nat.eqb_spec b p), (Nat.eqb_spec b q); lia.
Qed.
