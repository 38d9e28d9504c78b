(** Lemmas about the base64 protocol ids. *)
From Coq Require Import List Arith Lia Bool Ascii.
From Verif Require Import FinLib UniModel UniSpec UniProofs.
Import ListNotations.

Lemma bits_le_length : forall n z, length (bits_le n z) = n.
Proof. induction n; intros; simpl; auto. Qed.

Lemma val_bits_le : forall n z, z < 2 ^ n -> val_le (bits_le n z) = z.
Proof.
  induction n; intros z H.
  - simpl in *. lia.
  - change (2 ^ S n) with (2 * 2 ^ n) in H.
    cbn [bits_le val_le]. rewrite IHn by (apply Nat.div_lt_upper_bound; lia).
    pose proof (Nat.div_mod z 2 ltac:(lia)).
    pose proof (Nat.mod_upper_bound z 2 ltac:(lia)).
    destruct (z mod 2 =? 1) eqn:E; [apply Nat.eqb_eq in E | apply Nat.eqb_neq in E]; lia.
Qed.

Lemma val_le_bound : forall l, val_le l < 2 ^ length l.
Proof.
  induction l as [|b l IH]; [simpl; lia|].
  change (2 ^ length (b :: l)) with (2 * 2 ^ length l). cbn [val_le]. destruct b; lia.
Qed.

Lemma bits_val_le : forall l, bits_le (length l) (val_le l) = l.
Proof.
  induction l as [|b l IH]; [reflexivity|].
  cbn [length bits_le val_le].
  set (v := val_le l) in *.
  assert (E1 : ((if b then 1 else 0) + 2 * v) mod 2 = if b then 1 else 0).
  { rewrite (Nat.mul_comm 2 v), Nat.mod_add by lia. destruct b; reflexivity. }
  assert (E2 : ((if b then 1 else 0) + 2 * v) / 2 = v).
  { rewrite (Nat.mul_comm 2 v), Nat.div_add by lia. destruct b; reflexivity. }
  rewrite E1, E2, IH. destruct b; reflexivity.
Qed.

Lemma val_le_ones : forall l, Forall (fun b => b = true) l -> val_le l = 2 ^ length l - 1.
Proof.
  induction l as [|b l IH]; intros H; [reflexivity|].
  inversion H; subst. change (2 ^ length (true :: l)) with (2 * 2 ^ length l).
  cbn [val_le]. rewrite IH by auto. assert (2 ^ length l <> 0) by (apply Nat.pow_nonzero; lia). lia.
Qed.

Lemma field_bits_length : forall be n z, length (field_bits be n z) = n.
Proof. intros. unfold field_bits. destruct be; rewrite ?rev_length; apply bits_le_length. Qed.

Lemma field_val_bits : forall be n z, z < 2 ^ n -> field_val be (field_bits be n z) = z.
Proof.
  intros. unfold field_val, field_bits. destruct be; rewrite ?rev_involutive; apply val_bits_le; auto.
Qed.

Lemma field_val_bound : forall be l, field_val be l < 2 ^ length l.
Proof.
  intros. unfold field_val. destruct be; [rewrite <- (rev_length l)|]; apply val_le_bound.
Qed.

Lemma field_bits_val : forall be l, field_bits be (length l) (field_val be l) = l.
Proof.
  intros. unfold field_val, field_bits. destruct be.
  - rewrite <- (rev_length l), bits_val_le. apply rev_involutive.
  - apply bits_val_le.
Qed.

Lemma field_val_ones : forall be l, Forall (fun b => b = true) l -> field_val be l = 2 ^ length l - 1.
Proof.
  intros. unfold field_val. destruct be.
  - rewrite <- (rev_length l). apply val_le_ones. apply Forall_rev; auto.
  - apply val_le_ones; auto.
Qed.

Lemma write_bits_length : forall bs bt i, length (write_bits bt i bs) = length bt.
Proof. induction bs; intros; simpl; auto. rewrite IHbs. apply upd_length. Qed.

Lemma write_bits_nth : forall bs bt i j,
  nth j (write_bits bt i bs) false =
  if (i <=? j) && (j <? i + length bs) && (j <? length bt)
  then nth (j - i) bs false else nth j bt false.
Proof.
  induction bs as [|b bs IH]; intros bt i j.
  - simpl. destruct (i <=? j) eqn:E1; simpl; auto.
    destruct (j <? i + 0) eqn:E2; simpl; auto.
    apply Nat.leb_le in E1. apply Nat.ltb_lt in E2. lia.
  - cbn [write_bits length]. rewrite IH. rewrite upd_length, nth_upd.
    destruct (lt_eq_lt_dec j i) as [[L|E]|G].
    + replace (S i <=? j) with false by (symmetry; apply Nat.leb_gt; lia).
      replace (i <=? j) with false by (symmetry; apply Nat.leb_gt; lia).
      replace (j =? i) with false by (symmetry; apply Nat.eqb_neq; lia). reflexivity.
    + subst j. replace (S i <=? i) with false by (symmetry; apply Nat.leb_gt; lia).
      rewrite Nat.leb_refl, Nat.eqb_refl, Nat.sub_diag.
      replace (i <? i + S (length bs)) with true by (symmetry; apply Nat.ltb_lt; lia).
      simpl. destruct (i <? length bt); reflexivity.
    + replace (S i <=? j) with true by (symmetry; apply Nat.leb_le; lia).
      replace (i <=? j) with true by (symmetry; apply Nat.leb_le; lia).
      replace (j =? i) with false by (symmetry; apply Nat.eqb_neq; lia).
      replace (S i + length bs) with (i + S (length bs)) by lia.
      replace (j - i) with (S (j - S i)) by lia. reflexivity.
Qed.

Lemma bt_set_length : forall be bt i n z, length (bt_set be bt i n z) = length bt.
Proof. intros. apply write_bits_length. Qed.

Lemma bt_set_nth : forall be bt i n z j,
  nth j (bt_set be bt i n z) false =
  if (i <=? j) && (j <? i + n) && (j <? length bt)
  then nth (j - i) (field_bits be n z) false else nth j bt false.
Proof. intros. unfold bt_set. rewrite write_bits_nth, field_bits_length. reflexivity. Qed.

Lemma get_bits_length : forall (bt : list bool) i n,
  length (map (fun k => nth k bt false) (seq i n)) = n.
Proof. intros. rewrite map_length, seq_length. reflexivity. Qed.

Lemma bt_get_bound : forall be bt i n, bt_get be bt i n < 2 ^ n.
Proof.
  intros. unfold bt_get. eapply Nat.lt_le_trans; [apply field_val_bound|].
  rewrite get_bits_length. auto.
Qed.

Lemma get_bits_nth : forall (bt : list bool) i n r, r < n ->
  nth r (map (fun k => nth k bt false) (seq i n)) false = nth (i + r) bt false.
Proof.
  intros. rewrite (nth_indep _ false (nth 0 bt false)) by (rewrite get_bits_length; auto).
  rewrite (map_nth (fun k => nth k bt false)). rewrite seq_nth by auto. reflexivity.
Qed.

(** the r-th bit of a field read from a bit table *)
Lemma field_bits_get : forall be bt i n r, r < n ->
  nth r (field_bits be n (bt_get be bt i n)) false = nth (i + r) bt false.
Proof.
  intros. unfold bt_get.
  set (l := map _ (seq i n)).
  assert (L : length l = n) by apply get_bits_length.
  rewrite <- L at 1. rewrite field_bits_val. unfold l. apply get_bits_nth; auto.
Qed.

Lemma bt_get_ext : forall be bt bt' i n,
  (forall r, r < n -> nth (i + r) bt false = nth (i + r) bt' false) ->
  bt_get be bt i n = bt_get be bt' i n.
Proof.
  intros. unfold bt_get. f_equal. apply map_ext_in. intros k Hk. apply in_seq in Hk.
  replace k with (i + (k - i)) by lia. apply H. lia.
Qed.

Lemma bt_get_field : forall be bt i n z, z < 2 ^ n ->
  (forall r, r < n -> nth (i + r) bt false = nth r (field_bits be n z) false) ->
  bt_get be bt i n = z.
Proof.
  intros. unfold bt_get.
  replace (map (fun k => nth k bt false) (seq i n)) with (field_bits be n z).
  - apply field_val_bits; auto.
  - apply (list_ext_nth _ _ _ false); [rewrite field_bits_length, get_bits_length; auto|].
    intros r Hr. rewrite field_bits_length in Hr. rewrite get_bits_nth by auto. symmetry; auto.
Qed.

Lemma bt_get_ones : forall be bt i n,
  (forall r, r < n -> nth (i + r) bt false = true) ->
  bt_get be bt i n = 2 ^ n - 1.
Proof.
  intros. unfold bt_get. rewrite field_val_ones; [rewrite get_bits_length; auto|].
  apply Forall_forall. intros x Hx. apply in_map_iff in Hx. destruct Hx as (k & <- & Hk).
  apply in_seq in Hk. replace k with (i + (k - i)) by lia. apply H. lia.
Qed.

Lemma b64_val_char : forall w, w < 64 -> b64_val (b64_char w) = w.
Proof.
  intros w H.
  do 64 (destruct w as [|w]; [vm_compute; reflexivity|]). lia.
Qed.

Lemma b64_val_le : forall c, b64_val c <= 64.
Proof.
  intros [[] [] [] [] [] [] [] []]; vm_compute; lia.
Qed.

(** ** The size search *)
Lemma elgsz_mono : forall d, elgsz_of d <= elgsz_of (S d).
Proof. intros. unfold elgsz_of. pose proof (Nat.log2_le_mono d (S d)). lia. Qed.

Lemma b64_bits_step : forall d, b64_bits d < b64_bits (S d).
Proof.
  intros. unfold b64_bits. pose proof (elgsz_mono d).
  assert (1 <= elgsz_of (S d)) by (unfold elgsz_of; lia). nia.
Qed.

Lemma b64_bits_gap : forall d, 1 <= d -> b64_bits d + 5 < b64_bits (S d).
Proof.
  intros d Hd. destruct (Nat.eq_dec d 1) as [->|H1]; [vm_compute; lia|].
  unfold b64_bits. pose proof (elgsz_mono d).
  assert (2 <= elgsz_of (S d)).
  { unfold elgsz_of. pose proof (Nat.log2_le_mono 2 (S d) ltac:(lia)).
    change (Nat.log2 2) with 1 in H0. lia. }
  nia.
Qed.

Definition enc_len (M : nat) : nat := (b64_bits M + 5) / 6.

Lemma enc_len_bounds : forall M, b64_bits M <= 6 * enc_len M <= b64_bits M + 5.
Proof.
  intros. unfold enc_len. pose proof (Nat.div_mod (b64_bits M + 5) 6 ltac:(lia)).
  pose proof (Nat.mod_upper_bound (b64_bits M + 5) 6 ltac:(lia)). lia.
Qed.

Lemma b64_domsz_spec : forall n,
  let d := b64_domsz n in
  1 <= d /\ 6 * n <= b64_bits d + 5 /\ (forall d', 1 <= d' < d -> b64_bits d' + 5 < 6 * n).
Proof.
  intros. unfold b64_domsz in d.
  assert (Hm : forall x, (fun d => b64_bits d + 5) x < (fun d => b64_bits d + 5) (S x)).
  { intros x. cbv beta. pose proof (b64_bits_step x). lia. }
  destruct (grow_while_spec (fun d => b64_bits d + 5) (6 * n) Hm (6 * n) 1) as (A & B & C).
  { pose proof (mono_id b64_bits b64_bits_step (1 + 6 * n)). lia. }
  split; auto.
Qed.

Lemma b64_domsz_enc_len : forall M, 1 <= M -> b64_domsz (enc_len M) = M.
Proof.
  intros M HM. destruct (b64_domsz_spec (enc_len M)) as (A & B & C).
  set (d := b64_domsz (enc_len M)) in *. pose proof (enc_len_bounds M).
  destruct (lt_eq_lt_dec d M) as [[L|E]|G]; auto; exfalso.
  - pose proof (b64_bits_gap d A).
    assert (b64_bits (S d) <= b64_bits M).
    { destruct (Nat.eq_dec (S d) M) as [->|]; auto.
      pose proof (mono_lt b64_bits b64_bits_step (S d) M ltac:(lia)). lia. }
    lia.
  - specialize (C M). lia.
Qed.

Lemma enc_len_lt : forall K M, 1 <= K -> K < M -> enc_len K < enc_len M.
Proof.
  intros K M HK HM. pose proof (enc_len_bounds M). pose proof (enc_len_bounds K).
  pose proof (b64_bits_gap K HK).
  assert (b64_bits (S K) <= b64_bits M).
  { destruct (Nat.eq_dec (S K) M) as [<-|]; auto.
    pose proof (mono_lt b64_bits b64_bits_step (S K) M ltac:(lia)). lia. }
  lia.
Qed.

Lemma enc_len_pos : forall M, 1 <= M -> 1 <= enc_len M.
Proof.
  intros. pose proof (enc_len_bounds M).
  pose proof (mono_lt b64_bits b64_bits_step 0 M ltac:(lia)). lia.
Qed.

(** ** Writing fields *)
Lemma put_fields_length : forall be M e t i bt, length (put_fields be M e i t bt) = length bt.
Proof.
  induction t; intros; simpl; auto. rewrite IHt. destruct (a <? M); auto. apply bt_set_length.
Qed.

Lemma put_fields_nth : forall be M e t i bt, 0 < e ->
  forall k r, r < e -> (k * e + r) < length bt ->
  nth (k * e + r) (put_fields be M e i t bt) false =
  if (i <=? k) && (k <? i + length t) && (nth (k - i) t M <? M)
  then nth r (field_bits be e (nth (k - i) t M)) false
  else nth (k * e + r) bt false.
Proof.
  intros be M e. induction t as [|c t IH]; intros i bt He k r Hr Hlt.
  - simpl. destruct (i <=? k) eqn:E1; simpl; auto.
    destruct (k <? i + 0) eqn:E2; simpl; auto.
    apply Nat.leb_le in E1. apply Nat.ltb_lt in E2. lia.
  - cbn [put_fields length]. rewrite IH; auto;
    [|destruct (c <? M); auto; rewrite bt_set_length; auto].
    destruct (lt_eq_lt_dec k i) as [[L|E]|G].
    + replace (S i <=? k) with false by (symmetry; apply Nat.leb_gt; lia).
      replace (i <=? k) with false by (symmetry; apply Nat.leb_gt; lia). simpl.
      destruct (c <? M); auto. rewrite bt_set_nth.
      replace (i * e <=? k * e + r) with false; auto.
      symmetry. apply Nat.leb_gt. nia.
    + subst k. replace (S i <=? i) with false by (symmetry; apply Nat.leb_gt; lia).
      rewrite Nat.leb_refl, Nat.sub_diag.
      replace (i <? i + S (length t)) with true by (symmetry; apply Nat.ltb_lt; lia).
      simpl. destruct (c <? M); auto. rewrite bt_set_nth.
      replace (i * e <=? i * e + r) with true by (symmetry; apply Nat.leb_le; lia).
      replace (i * e + r <? i * e + e) with true by (symmetry; apply Nat.ltb_lt; lia).
      replace (i * e + r <? length bt) with true by (symmetry; apply Nat.ltb_lt; lia).
      simpl. replace (i * e + r - i * e) with r by lia. reflexivity.
    + replace (S i <=? k) with true by (symmetry; apply Nat.leb_le; lia).
      replace (i <=? k) with true by (symmetry; apply Nat.leb_le; lia).
      replace (S i + length t) with (i + S (length t)) by lia.
      replace (k - i) with (S (k - S i)) by lia. cbn [nth].
      destruct ((true && (k <? i + S (length t)) && (nth (k - S i) t M <? M))); auto.
      destruct (c <? M); auto. rewrite bt_set_nth.
      replace (k * e + r <? i * e + e) with false by (symmetry; apply Nat.ltb_ge; nia).
      rewrite andb_false_r. reflexivity.
Qed.

(** ** Reading characters *)
Lemma get_chars_none : forall be s i bt,
  get_chars be s i bt = None <-> exists c, In c s /\ 64 <= b64_val c.
Proof.
  induction s as [|c s IH]; intros i bt; cbn [get_chars].
  - split; [discriminate|]. intros (c & [] & _).
  - destruct (64 <=? b64_val c) eqn:E.
    + apply Nat.leb_le in E. split; auto. intros _. exists c. split; [left|]; auto.
    + apply Nat.leb_gt in E. rewrite IH. split; intros (c' & H1 & H2); exists c'; split; auto.
      * right; auto.
      * destruct H1 as [<-|H1]; auto. lia.
Qed.

Lemma get_chars_some : forall be s i bt bt',
  get_chars be s i bt = Some bt' ->
  length bt' = length bt /\
  forall k r, r < 6 -> 6 * k + r < length bt ->
  nth (6 * k + r) bt' false =
  if (i <=? k) && (k <? i + length s)
  then nth r (field_bits be 6 (b64_val (nth (k - i) s "A"%char))) false
  else nth (6 * k + r) bt false.
Proof.
  induction s as [|c s IH]; intros i bt bt' H; cbn [get_chars length] in *.
  - injection H as <-. split; auto. intros k r Hr Hl.
    destruct (i <=? k) eqn:E1; simpl; auto.
    destruct (k <? i + 0) eqn:E2; simpl; auto.
    apply Nat.leb_le in E1. apply Nat.ltb_lt in E2. lia.
  - destruct (64 <=? b64_val c) eqn:E; [discriminate|].
    apply IH in H. destruct H as [L H]. rewrite bt_set_length in *. split; auto.
    intros k r Hr Hl. rewrite H by auto.
    destruct (lt_eq_lt_dec k i) as [[Lt|Ee]|G].
    + replace (S i <=? k) with false by (symmetry; apply Nat.leb_gt; lia).
      replace (i <=? k) with false by (symmetry; apply Nat.leb_gt; lia). cbn [andb].
      rewrite bt_set_nth.
      replace (6 * i <=? 6 * k + r) with false; auto. symmetry. apply Nat.leb_gt. lia.
    + subst k. replace (S i <=? i) with false by (symmetry; apply Nat.leb_gt; lia).
      rewrite Nat.leb_refl, Nat.sub_diag.
      replace (i <? i + S (length s)) with true by (symmetry; apply Nat.ltb_lt; lia).
      cbn [andb nth]. rewrite bt_set_nth.
      replace (6 * i <=? 6 * i + r) with true by (symmetry; apply Nat.leb_le; lia).
      replace (6 * i + r <? 6 * i + 6) with true by (symmetry; apply Nat.ltb_lt; lia).
      replace (6 * i + r <? length bt) with true by (symmetry; apply Nat.ltb_lt; lia).
      cbn [andb]. replace (6 * i + r - 6 * i) with r by lia. reflexivity.
    + replace (S i <=? k) with true by (symmetry; apply Nat.leb_le; lia).
      replace (i <=? k) with true by (symmetry; apply Nat.leb_le; lia).
      replace (S i + length s) with (i + S (length s)) by lia.
      replace (k - i) with (S (k - S i)) by lia. cbn [nth andb].
      destruct (k <? i + S (length s)); auto. rewrite bt_set_nth.
      replace (6 * k + r <? 6 * i + 6) with false by (symmetry; apply Nat.ltb_ge; lia).
      rewrite andb_false_r. reflexivity.
Qed.

(** ** C04 *)
Lemma elgsz_pow : forall M, 1 <= M -> M < 2 ^ elgsz_of M.
Proof. intros. unfold elgsz_of. apply Nat.log2_spec. lia. Qed.

Lemma elgsz_byte : forall M, M <= 255 -> 2 ^ elgsz_of M <= 256.
Proof.
  intros. unfold elgsz_of. pose proof (Nat.log2_le_mono M 255 H) as H0.
  change (Nat.log2 255) with 7 in H0.
  change 256 with (2 ^ 8). apply Nat.pow_le_mono_r; lia.
Qed.

Lemma oput_b64_length : forall be t M, 1 <= M ->
  length (oput_b64_ppgfun be t M) = enc_len M.
Proof.
  intros. unfold oput_b64_ppgfun. replace (M =? 0) with false by (symmetry; apply Nat.eqb_neq; lia).
  rewrite map_length, seq_length. reflexivity.
Qed.

Lemma b64_roundtrip : forall be M t, 1 <= M <= 255 -> table_ok M t ->
  xget_b64_ppgfun be (oput_b64_ppgfun be t M) = Some (M, t).
Proof.
  intros be M t HM [L F].
  pose proof (oput_b64_length be t M ltac:(lia)) as Ln.
  unfold xget_b64_ppgfun. rewrite Ln. rewrite b64_domsz_enc_len by lia.
  fold (b64_bits M). change ((b64_bits M + 5) / 6) with (enc_len M).
  rewrite Nat.eqb_refl. cbn [negb].
  set (s := oput_b64_ppgfun be t M) in *.
  set (ebt := put_fields be M (elgsz_of M) 0 t (repeat true (b64_bits M + 5))).
  assert (Hs : s = map (fun k => b64_char (bt_get be ebt (6 * k) 6)) (seq 0 (enc_len M))).
  { unfold s, oput_b64_ppgfun. replace (M =? 0) with false by (symmetry; apply Nat.eqb_neq; lia).
    reflexivity. }
  assert (Lebt : length ebt = b64_bits M + 5).
  { unfold ebt. rewrite put_fields_length, repeat_length. reflexivity. }
  assert (Hnth : forall k, k < enc_len M -> b64_val (nth k s "A"%char) = bt_get be ebt (6 * k) 6).
  { intros k Hk. rewrite Hs.
    rewrite (nth_indep _ "A"%char (b64_char (bt_get be ebt (6 * 0) 6)))
      by (rewrite map_length, seq_length; auto).
    rewrite (map_nth (fun k => b64_char (bt_get be ebt (6 * k) 6))).
    rewrite seq_nth by auto. apply b64_val_char. apply (bt_get_bound be ebt _ 6). }
  destruct (get_chars be s 0 (repeat false (b64_bits M))) as [bt|] eqn:G.
  2:{ exfalso. apply get_chars_none in G. destruct G as (c & Hc & Hv).
      apply (In_nth _ _ "A"%char) in Hc. destruct Hc as (k & Hk & <-). rewrite Ln in Hk.
      rewrite Hnth in Hv by auto. pose proof (bt_get_bound be ebt (6 * k) 6) as B.
      change (2 ^ 6) with 64 in B. lia. }
  apply get_chars_some in G. destruct G as [Lbt G]. rewrite repeat_length in *.
  pose proof (enc_len_bounds M) as EB.
  (* decoded bits are the encoded bits *)
  assert (Hbits : forall q, q < b64_bits M -> nth q bt false = nth q ebt false).
  { intros q Hq. pose proof (Nat.div_mod q 6 ltac:(lia)) as Eq.
    pose proof (Nat.mod_upper_bound q 6 ltac:(lia)) as Bq.
    rewrite Eq. rewrite G by lia.
    replace ((0 <=? q / 6) && (q / 6 <? 0 + length s)) with true.
    2:{ symmetry. apply andb_true_iff. split; [apply Nat.leb_le; lia|].
        apply Nat.ltb_lt. rewrite Ln, Nat.add_0_l. apply Nat.div_lt_upper_bound; lia. }
    rewrite Nat.sub_0_r. rewrite Hnth by (apply Nat.div_lt_upper_bound; lia).
    apply field_bits_get; auto. }
  rewrite byte_small by lia. f_equal. f_equal.
  set (e := elgsz_of M) in *.
  assert (He : 0 < e) by (unfold e, elgsz_of; lia).
  apply (list_ext_nth _ _ _ M); [rewrite map_length, seq_length; lia|].
  rewrite map_length, seq_length. intros i Hi.
  set (g := fun i => _).
  rewrite (nth_indep _ M (g 0)) by (rewrite map_length, seq_length; auto).
  rewrite (map_nth g). rewrite seq_nth by auto. simpl. unfold g. clear g.
  assert (Hrange : forall r, r < e -> e * i + r < b64_bits M).
  { intros r Hr. unfold b64_bits. fold e. nia. }
  assert (Hfield : forall r, r < e -> nth (e * i + r) bt false =
     if nth i t M <? M then nth r (field_bits be e (nth i t M)) false else true).
  { intros r Hr. rewrite Hbits by auto. unfold ebt. rewrite (Nat.mul_comm e i).
    rewrite put_fields_nth; auto.
    - replace ((0 <=? i) && (i <? 0 + length t)) with true.
      2:{ symmetry. apply andb_true_iff. split; [apply Nat.leb_le; lia|]. apply Nat.ltb_lt. lia. }
      rewrite Nat.sub_0_r. simpl. destruct (nth i t M <? M); auto.
      specialize (Hrange r Hr).
      rewrite (nth_indep _ false true) by (rewrite repeat_length; nia).
      apply nth_repeat'.
    - rewrite repeat_length. specialize (Hrange r Hr). nia. }
  pose proof (elgsz_pow M ltac:(lia)) as Hp. pose proof (elgsz_byte M ltac:(lia)) as Hb.
  fold e in Hp, Hb.
  assert (Hti : nth i t M <= M).
  { destruct (nth_in_or_default i t M) as [H|H]; [|lia]. rewrite Forall_forall in F. auto. }
  destruct (nth i t M <? M) eqn:Ec.
  - apply Nat.ltb_lt in Ec.
    rewrite (bt_get_field be bt (e * i) e (nth i t M)); [|lia|auto].
    rewrite (byte_small (nth i t M)) by lia.
    apply Nat.ltb_lt in Ec. rewrite Ec. apply byte_small. lia.
  - apply Nat.ltb_ge in Ec.
    rewrite (bt_get_ones be bt (e * i) e) by auto.
    rewrite (byte_small (2 ^ e - 1)) by lia.
    replace (2 ^ e - 1 <? M) with false by (symmetry; apply Nat.ltb_ge; lia).
    rewrite byte_small; lia.
Qed.

(** ** C05 *)
Lemma xget_b64_none : forall be s,
  xget_b64_ppgfun be s = None <->
  (forall M, 1 <= M -> length s <> enc_len M) \/ (exists c, In c s /\ 64 <= b64_val c).
Proof.
  intros. unfold xget_b64_ppgfun.
  fold (b64_bits (b64_domsz (length s))).
  change ((b64_bits (b64_domsz (length s)) + 5) / 6) with (enc_len (b64_domsz (length s))).
  destruct (enc_len (b64_domsz (length s)) =? length s) eqn:E; cbn [negb].
  - apply Nat.eqb_eq in E. 
    destruct (get_chars be s 0 _) eqn:G.
    + split; [discriminate|]. intros [H|H].
      * exfalso. destruct (b64_domsz_spec (length s)) as (A & _). apply (H _ A). auto.
      * apply (get_chars_none be s 0 (repeat false (b64_bits (b64_domsz (length s))))) in H. congruence.
    + split; auto. intros _. right. eapply get_chars_none; eauto.
  - apply Nat.eqb_neq in E. split; auto. intros _. left. intros M HM H.
    rewrite H in E. rewrite b64_domsz_enc_len in E; auto.
Qed.

Lemma xget_b64_some : forall be s r t, xget_b64_ppgfun be s = Some (r, t) ->
  exists M, 1 <= M /\ length s = enc_len M /\ r = byte M /\ length t = M * M /\
  (M <= 255 -> Forall (fun c => c <= M) t).
Proof.
  intros be s r t H. unfold xget_b64_ppgfun in H.
  set (M := b64_domsz (length s)) in *.
  fold (b64_bits M) in H. change ((b64_bits M + 5) / 6) with (enc_len M) in H.
  destruct (enc_len M =? length s) eqn:E; [|discriminate]. cbn [negb] in H.
  apply Nat.eqb_eq in E.
  destruct (get_chars be s 0 _) eqn:G; [|discriminate]. injection H as <- <-.
  exists M. destruct (b64_domsz_spec (length s)) as (A & _). fold M in A.
  split; [auto|]. split; [auto|]. split; [auto|].
  split; [rewrite map_length, seq_length; auto|].
  intros HM. apply Forall_forall. intros x Hx. apply in_map_iff in Hx.
  destruct Hx as (i & <- & _).
  match goal with |- context [if ?c <? M then _ else _] => destruct (c <? M) eqn:Ec end; [apply Nat.ltb_lt in Ec|]; rewrite byte_small; lia.
Qed.

Lemma xget_b64_long_token : forall be M s, 1 <= M -> length s = enc_len M ->
  (forall c, In c s -> b64_val c < 64) ->
  exists t, xget_b64_ppgfun be s = Some (byte M, t) /\ length t = M * M.
Proof.
  intros be M s HM L Hc. unfold xget_b64_ppgfun. rewrite L, b64_domsz_enc_len by auto.
  fold (b64_bits M). change ((b64_bits M + 5) / 6) with (enc_len M). rewrite Nat.eqb_refl. cbn [negb].
  destruct (get_chars be s 0 _) eqn:G.
  - eexists. split; [reflexivity|]. rewrite map_length, seq_length. auto.
  - exfalso. apply get_chars_none in G. destruct G as (c & H1 & H2). apply Hc in H1. lia.
Qed.

Lemma xget_b64_short : forall K be s r t, 1 <= K <= 255 -> xget_b64_ppgfun be s = Some (r, t) ->
  length s <= (K * K * (1 + Nat.log2 K) + 5) / 6 ->
  1 <= r <= K /\ length s = (r * r * (1 + Nat.log2 r) + 5) / 6 /\ table_ok r t.
Proof.
  intros K be s r t HK H Hl. destruct (xget_b64_some be s r t H) as (M & H1 & H2 & H3 & H4 & H5).
  change (length s <= enc_len K) in Hl.
  assert (HM : M <= K).
  { destruct (le_lt_dec M K) as [|Hgt]; [assumption|]. exfalso.
    pose proof (enc_len_lt K M ltac:(lia) Hgt) as HL. lia. }
  rewrite byte_small in H3 by lia. subst r. repeat split; auto; try lia. apply H5. lia.
Qed.
