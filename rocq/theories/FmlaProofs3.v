From Coq Require Import List Arith Bool Lia.
From Verif Require Import FinLib FmlaModel FmlaSpec FmlaProofs FmlaProofs2.
Import ListNotations.

Section P.
Variable ds : list nat.
Notation ok := (ok ds).
Notation n := (length ds).
Notation wf_ids := (wf_ids ds).
Notation domsz := (domsz ds).

(** ** Variables *)
Lemma ev_eqc : forall v x a i p, v < n -> ok a -> ok i -> ok p ->
  eval (eqc_PFmlaVbl ds v x) (join a i p) = (nth v p 0 =? x).
Proof.
  intros v x a i p V A I P. unfold eqc_PFmlaVbl, domsz.
  pose proof (ok_nth ds p v P V). destruct (Nat.leb_spec (nth v ds 0) x).
  - cbn [eval]. symmetry; apply Nat.eqb_neq; lia.
  - cbn [eval]. unfold mdd_eq_c, pre_id. pose proof (ok_length _ _ A). pose proof (ok_length _ _ I). pose proof (ok_length _ _ P).
    destruct (nth_join a i p v) as (_ & _ & ->); try lia. auto.
Qed.
Lemma ev_img_eqc : forall v x a i p, v < n -> ok a -> ok i -> ok p ->
  eval (img_eqc_PFmlaVbl ds v x) (join a i p) = (nth v i 0 =? x mod domsz v).
Proof.
  intros v x a i p V A I P. unfold img_eqc_PFmlaVbl. cbn [eval]. unfold mdd_eq_c, img_id.
  pose proof (ok_length _ _ A). pose proof (ok_length _ _ I). pose proof (ok_length _ _ P).
  destruct (nth_join a i p v) as (_ & -> & _); try lia.
  destruct (Nat.leb_spec (domsz v) x); auto. rewrite Nat.mod_small; auto.
Qed.

Lemma existsb_pick : forall (k m : nat) (q : nat -> bool), k < m ->
  (forall x, x <> k -> q x = false) -> existsb q (seq 0 m) = q k.
Proof.
  intros k m q K H. destruct (q k) eqn:E.
  - apply existsb_exists. exists k; split; auto. apply in_seq; lia.
  - apply not_true_iff_false. intro C; apply existsb_exists in C as (x & _ & X).
    destruct (Nat.eq_dec x k) as [->|N]; [congruence|]. rewrite H in X by auto. discriminate.
Qed.

Lemma ev_eq : forall u v a i p, u < n -> v < n -> ok a -> ok i -> ok p ->
  eval (eq_PFmlaVbl ds u v) (join a i p) = (nth u p 0 =? nth v p 0).
Proof.
  intros u v a i p U V A I P. unfold eq_PFmlaVbl. rewrite fold_or. cbn [eval orb].
  pose proof (ok_nth ds p v P V). pose proof (ok_nth ds p u P U). unfold FmlaModel.domsz.
  set (m := if _ <=? _ then _ else _).
  assert (E : forall x, eval (and_PFmla (eqc_PFmlaVbl ds u x) (eqc_PFmlaVbl ds v x)) (join a i p) = ((nth u p 0 =? x) && (nth v p 0 =? x))).
  { intro x. rewrite eval_and, !ev_eqc by auto. auto. }
  destruct (Nat.eqb_spec (nth u p 0) (nth v p 0)) as [e|ne].
  - apply existsb_exists. exists (nth u p 0). split.
    + apply in_seq. unfold m; destruct (_ <=? _); lia.
    + rewrite E, e, Nat.eqb_refl; auto.
  - apply not_true_iff_false. intro C. apply existsb_exists in C as (x & _ & X). rewrite E in X.
    apply andb_true_iff in X as [X1 X2]. apply Nat.eqb_eq in X1, X2. congruence.
Qed.

Lemma ev_img_eq : forall u v a i p, u < n -> v < n -> ok a -> ok i -> ok p ->
  eval (img_eq_PFmlaVbl ds u v) (join a i p) = (nth u i 0 =? nth v p 0 mod domsz u).
Proof.
  intros u v a i p U V A I P. unfold img_eq_PFmlaVbl. rewrite fold_or. cbn [eval orb].
  pose proof (ok_nth ds p v P V).
  rewrite existsb_pick with (k := nth v p 0).
  - rewrite eval_and, ev_eqc, ev_img_eqc, Nat.eqb_refl, andb_true_r by auto. auto.
  - unfold FmlaModel.domsz; auto.
  - intros x X. rewrite eval_and, ev_eqc by auto. replace (nth v p 0 =? x) with false by (symmetry; apply Nat.eqb_neq; auto).
    apply andb_false_r.
Qed.

Lemma ev_img_eq_img : forall u v a i p, u < n -> v < n -> ok a -> ok i -> ok p ->
  eval (img_eq_img_PFmlaVbl ds u v) (join a i p) = (nth u i 0 =? nth v i 0 mod domsz u).
Proof.
  intros u v a i p U V A I P. unfold img_eq_img_PFmlaVbl. rewrite fold_or. cbn [eval orb].
  pose proof (ok_nth ds i v I V).
  assert (E : forall x, x < domsz v -> eval (and_PFmla (img_eqc_PFmlaVbl ds u x) (img_eqc_PFmlaVbl ds v x)) (join a i p) =
     ((nth u i 0 =? x mod domsz u) && (nth v i 0 =? x))).
  { intros x X. rewrite eval_and, !ev_img_eqc by auto. rewrite (Nat.mod_small x (domsz v)) by auto. auto. }
  destruct (Nat.eqb_spec (nth u i 0) (nth v i 0 mod domsz u)) as [e|ne].
  - apply existsb_exists. exists (nth v i 0). split; [apply in_seq; unfold FmlaModel.domsz; lia|].
    rewrite E by auto. rewrite <- e, !Nat.eqb_refl. auto.
  - apply not_true_iff_false. intro C. apply existsb_exists in C as (x & XI & X). apply in_seq in XI. rewrite E in X by lia.
    apply andb_true_iff in X as [X1 X2]. apply Nat.eqb_eq in X1, X2. congruence.
Qed.

(** ** States *)
Lemma ev_of_state : forall st ids a i p, wf_ids ids -> ok a -> ok i -> ok p -> length st = length ids ->
  (eval (of_state ds st ids) (join a i p) = true <-> values ids p = st).
Proof.
  intros st ids a i p W A I P L. unfold of_state. rewrite fold_and. cbn [eval andb].
  revert st L W; induction ids as [|v ids IH]; intros [|x st] L W; cbn [length combine forallb] in *; try lia; [unfold values; tauto|].
  inversion W; subst. cbn [fst snd]. rewrite andb_true_iff, ev_eqc, IH by auto. cbn [values map].
  rewrite Nat.eqb_eq. fold (values ids p). split; [intros [-> ->]; auto|intro E; injection E; auto].
Qed.
Lemma ev_of_img_state : forall st ids a i p, wf_ids ids -> ok a -> ok i -> ok p -> length st = length ids ->
  (eval (of_img_state ds st ids) (join a i p) = true <-> values ids i = map (fun vx => snd vx mod domsz (fst vx)) (combine ids st)).
Proof.
  intros st ids a i p W A I P L. unfold of_img_state. rewrite fold_and. cbn [eval andb].
  revert st L W; induction ids as [|v ids IH]; intros [|x st] L W; cbn [length combine forallb] in *; try lia; [unfold values; cbn; tauto|].
  inversion W; subst. cbn [fst snd map]. rewrite andb_true_iff, ev_img_eqc, IH by auto. cbn [values map].
  rewrite Nat.eqb_eq. fold (values ids i). cbn [fst snd]. split; [intros [-> ->]; auto|intro E; injection E; auto].
Qed.

(** ** Picking *)
Section Pick.
Hypothesis INH : inhabited ds.
Variable g : fmla.

Definition sat_with (c : fmla) : Prop := exists a i p, ok a /\ ok i /\ ok p /\ eval c (join a i p) = true /\ eval g (join a i p) = true.

Lemma pick_val_spec : forall c v vals, v < n -> 
  let r := pick_val ds g c v vals in
  (forall x, ~ In x vals -> x < domsz v - 1 -> ~ sat_with (and_PFmla c (eqc_PFmlaVbl ds v x))) ->
  sat_with c -> sat_with (and_PFmla c (eqc_PFmlaVbl ds v r)).
Proof.
  intros c v vals V r. unfold r.
  induction vals as [|x vals IH]; intros H (a & i & p & A & I & P & C & G); cbn [pick_val].
  - exists a, i, p. do 3 (split; [auto|]). split; [|auto]. rewrite eval_and, C, ev_eqc by auto. apply Nat.eqb_eq.
    pose proof (ok_nth ds p v P V). unfold FmlaModel.domsz in *.
    destruct (Nat.eq_dec (nth v p 0) (nth v ds 0 - 1)) as [E|E]; auto. exfalso.
    apply (H (nth v p 0)); [intros []|lia|]. exists a, i, p. do 3 (split; [auto|]). split; [|auto].
    rewrite eval_and, C, ev_eqc, Nat.eqb_refl by auto. auto.
  - destruct (overlap_ck ds _ g) eqn:O.
    + apply (overlap_iff ds INH) in O. exact O.
    + apply IH; [|exists a, i, p; auto 10]. intros y N B. destruct (Nat.eq_dec y x) as [->|D].
      * intro S. apply (overlap_iff ds INH) in S. congruence.
      * apply H; auto. intros [E|E]; auto.
Qed.

Lemma pick_val_min : forall c v m x, v < n -> x < pick_val ds g c v (seq m (domsz v - 1 - m)) -> m <= x ->
  ~ sat_with (and_PFmla c (eqc_PFmlaVbl ds v x)).
Proof.
  intros c v m x V. remember (domsz v - 1 - m) as len eqn:L. revert m L.
  induction len; intros m L H M; cbn [seq pick_val] in H.
  - lia.
  - destruct (overlap_ck ds (and_PFmla c (eqc_PFmlaVbl ds v m)) g) eqn:O; [lia|].
    destruct (Nat.eq_dec x m) as [->|D].
    + intro S. apply (overlap_iff ds INH) in S. congruence.
    + apply (IHlen (S m)); auto; lia.
Qed.

Lemma pick_loop_spec : forall ids c, wf_ids ids -> sat_with c ->
  let (vals, c') := pick_loop ds g c ids in
  length vals = length ids /\
  sat_with c' /\
  (forall a i p, ok a -> ok i -> ok p ->
     (eval c' (join a i p) = true <-> eval c (join a i p) = true /\ values ids p = vals)) /\
  (forall a i p, ok a -> ok i -> ok p -> eval c (join a i p) = true -> eval g (join a i p) = true ->
     lex_le vals (values ids p)).
Proof.
  induction ids as [|v ids IH]; intros c W S; cbn [pick_loop].
  - split; [auto|]. split; [auto|]. split; [intros; unfold values; cbn; tauto|]. intros; constructor.
  - inversion W as [|? ? V W']; subst. set (x := pick_val _ _ _ _ _).
    assert (S' : sat_with (and_PFmla c (eqc_PFmlaVbl ds v x))).
    { apply (pick_val_spec c v (seq 0 (domsz v - 1)) V); auto. intros y N B. exfalso; apply N, in_seq; lia. }
    specialize (IH _ W' S'). destruct (pick_loop ds g (and_PFmla c (eqc_PFmlaVbl ds v x)) ids) as [vals c'].
    destruct IH as (L & SC & EV & MIN). split; [cbn; auto|]. split; [auto|]. split.
    + intros a i p A I P. rewrite EV, eval_and, andb_true_iff, ev_eqc, Nat.eqb_eq by auto. cbn [values map].
      fold (values ids p). split; [intros [[C <-] <-]; auto|]. intros [C E]; injection E; auto.
    + intros a i p A I P C G. cbn [values map]. fold (values ids p).
      destruct (lt_eq_lt_dec x (nth v p 0)) as [[LT|EQ]|GT].
      * apply lex_lt; auto. unfold values; rewrite map_length; auto.
      * rewrite <- EQ. apply lex_eq. apply (MIN a i p); auto. rewrite eval_and, C, ev_eqc, EQ, Nat.eqb_refl by auto. auto.
      * exfalso. unfold x in GT. replace (domsz v - 1) with (domsz v - 1 - 0) in GT by lia.
        apply (pick_val_min c v 0 (nth v p 0)) in GT; auto; [|lia]. apply GT.
        exists a, i, p. do 3 (split; [auto|]). split; auto. rewrite eval_and, C, ev_eqc, Nat.eqb_refl by auto. auto.
Qed.
End Pick.

(** ** All copies *)
Lemma smooth_app : forall f l1 l2 e, mdd_smooth ds f (l1 ++ l2) e = mdd_smooth ds (mdd_smooth ds f l2) l1 e.
Proof.
  intros f l1 l2; induction l1 as [|x l1 IH]; intro e; cbn [app mdd_smooth]; auto.
  generalize (seq 0 (nth x (mdd_doms ds) 0)). induction l as [|v l IHl]; cbn [existsb]; auto. rewrite IH, IHl; auto.
Qed.

Lemma ev_smooth_all : forall l f a i p, wf_ids l -> ok a -> ok i -> ok p ->
  (mdd_smooth ds f (copies AllCopies l) (join a i p) = true <->
   exists a' i' p', ok a' /\ ok i' /\ ok p' /\ agree_off ds l a' a /\ agree_off ds l i' i /\ agree_off ds l p' p /\
     f (join a' i' p') = true).
Proof.
  induction l as [|v l IH]; intros f a i p W A I P.
  - cbn [copies flat_map mdd_smooth]. split.
    + intro H; exists a, i, p. repeat split; auto.
    + intros (a' & i' & p' & A' & I' & P' & Ha & Hi & Hp & H).
      assert (EX : forall s s', ok s -> ok s' -> agree_off ds [] s' s -> s' = s).
      { intros s s' S S' H'. apply list_ext_nth with (d := 0); [rewrite (ok_length ds s S), (ok_length ds s' S'); auto|].
        intros k K. apply H'; auto. rewrite <- (ok_length _ _ S'); auto. }
      rewrite <- (EX a a'), <- (EX i i'), <- (EX p p') by auto. auto.
  - inversion W as [|? ? V W']; subst. assert (WV : wf_ids [v]) by (repeat constructor; auto).
    change (copies AllCopies (v :: l)) with (map aux_id [v] ++ map img_id [v] ++ map pre_id [v] ++ copies AllCopies l).
    rewrite smooth_app, smooth_aux by auto.
    assert (COMB : forall s s1 s2, agree_off ds [v] s1 s -> agree_off ds l s2 s1 -> agree_off ds (v :: l) s2 s).
    { intros s s1 s2 H1 H2 k K N. rewrite H2, H1; auto; intro C; apply N; [destruct C as [->|[]]; left; auto|right; auto]. }
    assert (SPLIT : forall s s2, agree_off ds (v :: l) s2 s -> agree_off ds l s2 (over ds [v] s2 s)).
    { intros s s2 H k K N. destruct (Nat.eq_dec k v) as [->|D]; [rewrite over_in; auto; left; auto|].
      rewrite over_out by (auto; intros [C|[]]; auto). apply H; auto. intros [C|C]; auto. }
    split.
    + intros (a1 & A1 & Ha & H). rewrite smooth_app, smooth_img in H by auto. destruct H as (i1 & I1 & Hi & H).
      rewrite smooth_app, smooth_pre in H by auto. destruct H as (p1 & P1 & Hp & H).
      apply IH in H as (a2 & i2 & p2 & A2 & I2 & P2 & Ha2 & Hi2 & Hp2 & H); auto.
      exists a2, i2, p2. repeat split; eauto.
    + intros (a2 & i2 & p2 & A2 & I2 & P2 & Ha & Hi & Hp & H).
      exists (over ds [v] a2 a). split; [apply over_ok; auto|]. split; [apply over_agree|].
      rewrite smooth_app, smooth_img by auto using over_ok.
      exists (over ds [v] i2 i). split; [apply over_ok; auto|]. split; [apply over_agree|].
      rewrite smooth_app, smooth_pre by auto using over_ok.
      exists (over ds [v] p2 p). split; [apply over_ok; auto|]. split; [apply over_agree|].
      apply IH; auto using over_ok. exists a2, i2, p2. do 3 (split; [auto|]). do 3 (split; [apply SPLIT; auto|]). auto.
Qed.

Lemma ev_smooth_vbls : forall X l c a i p, wf_ids l -> ok a -> ok i -> ok p ->
  (eval (smooth_vbls ds X l c) (join a i p) = true <->
   exists a' i' p', ok a' /\ ok i' /\ ok p' /\
     (match c with AllCopies => agree_off ds l a' a | _ => a' = a end) /\
     (match c with Pre => i' = i | _ => agree_off ds l i' i end) /\
     (match c with Img => p' = p | _ => agree_off ds l p' p end) /\ eval X (join a' i' p') = true).
Proof.
  intros [b|f] l c a i p W A I P; cbn [smooth_vbls eval].
  - split; [|intros (a' & i' & p' & ?); tauto]. intro H; exists a, i, p.
    assert (AG : forall s, agree_off ds l s s) by (intros s k K N; auto).
    destruct c; repeat split; auto.
  - destruct c.
    + cbn [copies]. rewrite smooth_pre by auto. split.
      * intros (p' & P' & O & H). exists a, i, p'. repeat split; auto.
      * intros (a' & i' & p' & A' & I' & P' & -> & -> & O & H). eauto.
    + cbn [copies]. rewrite smooth_img by auto. split.
      * intros (p' & P' & O & H). exists a, p', p. repeat split; auto.
      * intros (a' & i' & p' & A' & I' & P' & -> & O & -> & H). eauto.
    + apply ev_smooth_all; auto.
Qed.

(** ** Masks *)
Lemma ev_identity : forall a i p, ok a -> ok i -> ok p ->
  (eval (identity_xn ds) (join a i p) = true <-> agree_off ds [] i p).
Proof.
  intros a i p A I P. unfold identity_xn. rewrite fold_and. cbn [eval andb].
  rewrite forallb_forall. split.
  - intros H k K _. assert (IN : In k (all_ids ds)) by (apply in_seq; lia).
    specialize (H k IN). rewrite ev_img_eq in H by auto. apply Nat.eqb_eq in H.
    rewrite Nat.mod_small in H; auto. apply ok_nth; auto.
  - intros H k K. apply in_seq in K. rewrite ev_img_eq by (auto; lia). apply Nat.eqb_eq.
    rewrite Nat.mod_small by (apply ok_nth; auto; lia). apply H; auto. lia.
Qed.

Lemma fold_smooth : forall w X l, wf_ids w -> 
  (forall a i p, ok a -> ok i -> ok p -> (eval X (join a i p) = true <-> agree_off ds l i p)) ->
  forall a i p, ok a -> ok i -> ok p ->
  (eval (fold_left (fun xn v => smooth_vbls ds xn [v] AllCopies) w X) (join a i p) = true <-> agree_off ds (w ++ l) i p).
Proof.
  induction w as [|v w IH]; intros X l W H a i p A I P; cbn [fold_left app]; [apply H; auto|].
  inversion W as [|? ? V W']; subst.
  assert (E : agree_off ds (v :: w ++ l) i p <-> agree_off ds (w ++ v :: l) i p).
  { split; intros K k B N; apply K; auto; intro C; apply N; [apply in_app_iff; destruct C as [->|C]; [right; left; auto|];
      apply in_app_iff in C as [C|C]; [left; auto|right; right; auto]|].
    apply in_app_iff in C as [C|[->|C]]; [right; apply in_app_iff; auto|left; auto|right; apply in_app_iff; auto]. }
  rewrite E. apply IH; auto. clear E a i p A I P. intros a i p A I P.
  rewrite ev_smooth_vbls by (auto; repeat constructor; auto). split.
  - intros (a' & i' & p' & A' & I' & P' & Ha & Hi & Hp & K). apply H in K; auto.
    intros k B N. rewrite <- Hi, <- Hp by (auto; intros [C|[]]; apply N; left; auto). apply K; auto. intro C; apply N; right; auto.
  - intro K. exists a, (over ds [v] p i), p. do 2 (split; [auto using over_ok|]). split; [auto|].
    split; [intros k B N; auto|]. split; [apply over_agree|]. split; [intros k B N; auto|].
    apply H; auto using over_ok. intros k B N. destruct (Nat.eq_dec k v) as [->|D]; [apply over_in; auto; left; auto|].
    rewrite over_out by (auto; intros [C|[]]; auto). apply K; auto. intros [C|C]; auto.
Qed.

Lemma ev_mask : forall w a i p, wf_ids w -> ok a -> ok i -> ok p ->
  (eval (mask_xn ds w) (join a i p) = true <-> agree_off ds w i p).
Proof.
  intros w a i p W A I P. unfold mask_xn.
  rewrite (fold_smooth w (identity_xn ds) []); auto using ev_identity. rewrite app_nil_r. tauto.
Qed.

End P.
