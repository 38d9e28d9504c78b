(** What is printed with the option of pairs is given by pairs. *)
From Coq Require Import List Arith Bool Lia.
From Verif Require Import Radix BiringModel BiringSpec BiringProofs BiringProofs2 BiringProofs3 BiringProps
  BiringEnumModel BiringEnumSpec BiringEnumProofs BiringEnumProofs2 BiringEnumProps BiringPairProofs.
Import ListNotations.

Section Shape.
Variable M : nat.
Notation size := (M * M * M).

Lemma walk_in : forall W n e f, ck W e = true -> walk M W n e f -> ck W f = true.
Proof. intros W [|n] e f K H; [cbn in H; congruence|]. eapply walk_ck. exact H. Qed.

Lemma before : forall W e b d t, length W = size -> b < M -> d < M -> t < M -> ck W e = true -> step M W e (place M (b, d, t)) ->
  exists z, z < M /\ e = place M (z, b, d).
Proof.
  intros W e b d t L Hb Hd Ht K S. pose proof (ck_bound _ _ K) as B. rewrite L in B. destruct (place_config M e B) as (V1 & V2).
  rewrite <- V2 in S. apply step_iff in S; auto. destruct S as (t' & T1 & T2 & _). destruct (pc_config_of_enum_idx M e) as ((z & b') & d').
  destruct V1 as (Vz & Vb & Vd). cbn [fst snd] in T2. apply place_inj in T2; [|cbn; auto|cbn; auto]. injection T2 as -> -> _.
  exists z. auto.
Qed.

Lemma cut_shaped : forall W s, length W = size -> shaped M W -> biring_fixpoint M W = Some s -> shaped M s.
Proof.
  intros W s L HP E a b d x y Ha Hb Hd Hx Hy K1 K2.
  destruct (biring_fixpoint_spec M W) as (s2 & E2 & _ & F & _). assert (s2 = s) by congruence. subst s2. clear E2.
  assert (St : forall x y z t, x < M -> y < M -> z < M -> t < M -> in_table M W (y, z, t) -> step M W (place M (x, y, z)) (place M (y, z, t))).
  { intros x0 y0 z0 t0 H1 H2 H3 H4 K. apply step_iff; [cbn; auto|]. exists t0. auto. }
  assert (Tw : forall e k, walk M W (S k) e e -> walk M W (S (S (2 * k))) e e).
  { intros e k H. replace (S (S (2 * k))) with (2 * S k) by lia. apply walk_pow. auto. }
  apply F in K1. destruct K1 as (k1 & W1). apply F in K2. destruct K2 as (k2 & W2).
  assert (A1 : in_table M W (a, b, x)) by (apply (walk_ck M W k1 _ _ W1)).
  assert (B1 : in_table M W (b, d, y)) by (apply (walk_ck M W k2 _ _ W2)).
  apply Tw in W1, W2. destruct W1 as (e2 & S1 & W1). apply walk_last in W1. destruct W1 as (e0 & W1 & S2).
  apply walk_last in W2. destruct W2 as (f0 & W2 & S4). apply walk_last in W2. destruct W2 as (f00 & W2 & S3).
  pose proof S1 as S1'. apply step_iff in S1'; [|cbn; auto]. destruct S1' as (u & Hu & -> & A2). cbn [fst snd] in *.
  assert (Ke0 : ck W e0 = true) by (apply (walk_in W _ _ _ A2 W1)).
  destruct (before W e0 a b x) as (z & Hz & ->); auto.
  assert (Kf00 : ck W f00 = true) by (apply (walk_in W _ (place M (b, d, y)) _ B1 W2)).
  assert (Kf0 : ck W f0 = true) by (apply (walk_in W 1 f00 f0 Kf00); exists f0; cbn; auto).
  destruct (before W f0 b d y) as (w & Hw & ->); auto.
  destruct (before W f00 w b d) as (v & Hv & ->); auto.
  assert (Gg : in_table M W (a, b, d)) by (apply (HP a b d x y); auto).
  assert (Gh : in_table M W (w, b, x)) by (apply (HP w b x d u); auto).
  apply F. exists (2 * k2 + (2 + (2 * k1 + 1)) - 1 + 1). replace (S (2 * k2 + (2 + (2 * k1 + 1)) - 1 + 1)) with (S (2 * k2 + (2 + (2 * k1 + 1)))) by lia.
  exists (place M (b, d, y)). split; [apply St; auto|].
  apply (walk_app M W (2 * k2) _ _ (place M (v, w, b)) _ W2).
  apply (walk_app M W 2 _ _ (place M (b, x, u))).
  - exists (place M (w, b, x)). split; [apply St; auto|]. exists (place M (b, x, u)). split; [apply St; auto|reflexivity].
  - apply (walk_app M W (2 * k1) 1 _ (place M (z, a, b)) _ W1). exists (place M (a, b, d)). split; [apply St; auto|reflexivity].
Qed.

Lemma without_shaped : forall s q, length s = size -> q < size -> shaped M s -> shaped M (without M true s q).
Proof.
  intros s q L Hq HP a b d x y Ha Hb Hd Hx Hy K1 K2. destruct (without_pair M s q L Hq) as (Lw & S1 & N & W).
  assert (X : in_table M s (a, b, d)) by (apply (HP a b d x y); auto; apply S1; auto).
  apply W; auto. intros Z. apply N. rewrite <- Z. rewrite place_div by auto. apply hasp_view; auto. exists x. auto.
Qed.

Lemma shaped_iso : forall s t, isomorphic M s t -> shaped M s -> shaped M t.
Proof.
  intros s t (f & Rf & (_ & T)) PD. pose proof (renaming_onto M f Rf) as O. intros a b d x y Ha Hb Hd Hx Hy K1 K2.
  destruct (O a Ha) as (a' & A1 & <-). destruct (O b Hb) as (b' & B1 & <-). destruct (O d Hd) as (d' & D1 & <-).
  destruct (O x Hx) as (x' & X1 & <-). destruct (O y Hy) as (y' & Y1 & <-).
  apply T in K1, K2; auto. apply T; auto. apply (PD a' b' d' x' y'); auto.
Qed.

Lemma start_shaped : forall trivial, shaped M (start_set M true trivial).
Proof.
  intros trivial.
  assert (R : forall a b d, a < M -> b < M -> d < M -> ck (repeat true size) (place M (a, b, d)) = true).
  { intros a b d Ha Hb Hd. assert (B : place M (a, b, d) < size) by (apply place_bound; cbn; auto).
    unfold ck. rewrite (nth_indep _ false true) by (rewrite repeat_length; auto). apply nth_repeat. }
  intros a b d x y Ha Hb Hd Hx Hy K1 K2. unfold start_set in *. destruct trivial; [apply R; auto|].
  set (F := fun set v => fold_left (fun set i => set_bit set (enum_idx_of_pc_config M (v, v, i)) false) (seq 0 M) set) in *.
  assert (Fs : forall s v j, ck (F s v) j = true -> ck s j = true).
  { intros s v. apply (proj2 (fold_set_false (fun i => enum_idx_of_pc_config M (v, v, i)) (seq 0 M) s)). }
  assert (Nab : a <> b).
  { intros <-. destruct (fold_clear F (fun v => place M (v, v, x)) (seq 0 M) (repeat true size)) as (_ & _ & C).
    - exact Fs.
    - intros s v _. unfold F.
      destruct (fold_clear (fun set i => set_bit set (enum_idx_of_pc_config M (v, v, i)) false) (fun i => place M (v, v, i)) (seq 0 M) s) as (_ & _ & C).
      + intros s0 w j. apply (proj2 (fold_set_false (fun i => i) [enum_idx_of_pc_config M (v, v, w)] s0)).
      + intros s0 w _. rewrite enum_place. apply ck_clear.
      + intros s0 w. apply set_bit_length.
      + apply C. apply in_seq. lia.
    - intros s v. apply (proj1 (fold_set_false (fun i => enum_idx_of_pc_config M (v, v, i)) (seq 0 M) s)).
    - assert (Z : ck (fold_left F (seq 0 M) (repeat true size)) (place M (a, a, x)) = false) by (apply C; apply in_seq; lia).
      unfold in_table in K1. unfold ck in Z. congruence. }
  assert (G : forall l z, (forall v, In v l -> v < M) -> ck z (place M (a, b, d)) = true -> ck (fold_left F l z) (place M (a, b, d)) = true).
  { induction l as [|v l IH]; intros z Hl Hz; cbn [fold_left]; auto. apply IH; [intros w Hw; apply Hl; right; auto|].
    unfold F. rewrite (fold_keep (fun i => enum_idx_of_pc_config M (v, v, i))); auto.
    intros t Ht E. apply in_seq in Ht. rewrite enum_place in E. assert (v < M) by (apply Hl; left; auto).
    apply place_inj in E; [|cbn; repeat split; lia|cbn; auto]. injection E as E1 E2 _. congruence. }
  apply G; auto. intros v Hv. apply in_seq in Hv. lia.
Qed.

Variable gt : bits -> bits -> bool.
Hypothesis Hgt : strict_total gt.
Variables (minsz fuel : nat).
Hypothesis Hfuel : 2 ^ size < fuel.

Lemma enter_shaped : forall loop X db db', length X = size -> shaped M X ->
  (forall s db0 db1, length s = size -> shaped M s -> loop s db0 = Some db1 -> (forall c, In c db0 -> shaped M c) -> forall c, In c db1 -> shaped M c) ->
  enter M gt minsz fuel loop X db = Some db' -> (forall c, In c db -> shaped M c) -> forall c, In c db' -> shaped M c.
Proof.
  intros loop X db db' L HP HL E I. apply enter_cases in E; auto.
  destruct E as (s & F & Ls & _ & [(_ & ->)|[(_ & _ & ->)|(_ & _ & E)]]); auto.
  assert (Hs : shaped M s) by (apply (cut_shaped X s); auto).
  apply (HL s _ _ Ls Hs E). intros c Hc. apply in_app_or in Hc. destruct Hc as [Hc|[<-|[]]]; auto.
  apply (shaped_iso s); auto. apply canonical_iso; auto.
Qed.

Lemma loop_shaped : forall q X db db', q <= size -> length X = size -> shaped M X -> recurse_loop M gt true minsz fuel q X db = Some db' ->
  (forall c, In c db -> shaped M c) -> forall c, In c db' -> shaped M c.
Proof.
  induction q as [|q IH]; intros X db db' Hq L HP H I; cbn [recurse_loop] in H; [injection H as <-; auto|].
  destruct (ck X q); [|apply (IH X db db'); auto; lia].
  destruct (enter M gt minsz fuel (recurse_loop M gt true minsz fuel q) (without M true X q) db) as [db1|] eqn:E; [|discriminate].
  apply (IH X db1 db'); auto; [lia|].
  apply (enter_shaped (recurse_loop M gt true minsz fuel q) (without M true X q) db db1); auto.
  - apply (without_pair M X q); auto.
  - apply without_shaped; auto.
  - intros s db0 db2 L2 P2 H2 I2. apply (IH s db0 db2); auto. lia.
Qed.

Lemma searchit_shaped : forall trivial db, searchit M gt true minsz fuel trivial = Some db -> forall c, In c db -> shaped M c.
Proof.
  intros trivial db H. unfold searchit, recurse in H. destruct (start_set_spec M true trivial) as (L & _).
  apply (enter_shaped (recurse_loop M gt true minsz fuel size) (start_set M true trivial) [] db); auto.
  - apply start_shaped.
  - intros s db0 db1 L2 P2 H2 I2. apply (loop_shaped size s db0 db1); auto.
  - intros c [].
Qed.
End Shape.
