From Coq Require Import List Arith Bool NArith Lia.
From Verif Require Import UniModel UniSpec UniProofs WangModel WangSpec WangProofs.
Import ListNotations.

Definition grid (R : rule) (Y : nat -> nat -> colour) : Prop := forall i j, R (Y (S i) j) (Y i (S j)) (Y (S i) (S j)).

(** * Ids and colours *)
Section Ids.
Variables (enc : colour -> sym) (dec : sym -> colour) (R : rule) (m : list sym) (acts : list UniAct).
Hypothesis RE : realises enc R m acts.
Hypothesis DE : forall x y z, R x y z -> dec (enc x) = x /\ dec (enc y) = y /\ dec (enc z) = z.
Hypothesis CO : covers enc R m.
Definition colour_of (a : nat) : colour := dec (nth a m doll_sym).
Definition id_of (x : colour) : nat := match sym_index m (enc x) with Some i => i | None => 0 end.
Lemma nth_of_error : forall a x, nth_error m a = Some x -> nth a m doll_sym = x.
Proof. intros a x H. apply nth_error_nth with (d := doll_sym) in H. auto. Qed.
Lemma grid_of_acts : forall X, action_tiling (protocol_of acts) X -> grid R (fun i j => colour_of (X i j)).
Proof.
  intros X H i j. specialize (H i j). unfold protocol_of in H. apply RE in H. destruct H as (x & y & z & H & H1 & H2 & H3). unfold colour_of.
  apply nth_of_error in H1, H2, H3. rewrite H1, H2, H3. destruct (DE x y z H) as (-> & -> & ->). auto.
Qed.
Lemma id_of_spec : forall x a, nth_error m a = Some (enc x) -> nth_error m (id_of x) = Some (enc x).
Proof.
  intros x a H. unfold id_of. destruct (sym_index m (enc x)) eqn:E; [apply sym_index_some; auto|]. apply sym_index_none in E. exfalso. apply E. eapply nth_error_In. eauto.
Qed.
Lemma acts_of_grid : forall Y, grid R Y -> action_tiling (protocol_of acts) (fun i j => id_of (Y i j)).
Proof.
  intros Y H i j. specialize (H i j). unfold protocol_of. apply RE. do 3 eexists. split; [exact H|]. destruct (CO _ _ _ H) as (a & b & c & H1 & H2 & H3).
  split; [eapply id_of_spec; eauto|]. split; eapply id_of_spec; eauto.
Qed.
End Ids.

(** * The plain rule *)
Definition val (x : colour) : N := match x with T0 v | T1 v => v | CD s e => s | _ => 0%N end.
Definition val2 (x : colour) : N := match x with CD s e => e | _ => 0%N end.
Definition is_tile (W : list tile) (Y : nat -> nat -> colour) (i j : nat) : Prop :=
  exists w n s e, In (w, n, s, e) W /\ Y (S i) j = T0 w /\ Y i (S j) = T1 n /\ Y (S i) (S j) = CD s e.
Lemma plain_inv_CD : forall W x y s e, plain W x y (CD s e) -> exists w n, In (w, n, s, e) W /\ x = T0 w /\ y = T1 n.
Proof. intros W x y s e H. inversion H; subst. eauto. Qed.
Lemma plain_right : forall W Y i j, grid (plain W) Y -> is_tile W Y i j -> is_tile W Y i (j + 2) /\ Y (S i) (j + 2) = T0 (val2 (Y (S i) (S j))).
Proof.
  intros W Y i j G (w & n & s & e & I & A & B & C). pose proof (G i (S j)) as G1. rewrite C in G1. inversion G1 as [| |w1 n1 s1 e1 I1 H1 H2 H3|]; subst.
  pose proof (G i (S (S j))) as G2. rewrite <- H3 in G2. inversion G2 as [w2 n2 s2 e2 I2 K1 K2 K3| | |]; subst.
  replace (j + 2) with (S (S j)) by lia. rewrite C. cbn [val2]. split; [|auto]. exists e, n2, s2, e2. auto.
Qed.
Lemma plain_down : forall W Y i j, grid (plain W) Y -> is_tile W Y i j -> is_tile W Y (i + 2) j /\ Y (i + 2) (S j) = T1 (val (Y (S i) (S j))).
Proof.
  intros W Y i j G (w & n & s & e & I & A & B & C). pose proof (G (S i) j) as G1. rewrite C in G1. inversion G1 as [|w1 n1 s1 e1 I1 H1 H2 H3| |]; subst.
  pose proof (G (S (S i)) j) as G2. rewrite <- H3 in G2. inversion G2 as [w2 n2 s2 e2 I2 K1 K2 K3| | |]; subst.
  replace (i + 2) with (S (S i)) by lia. rewrite C. cbn [val]. split; [|auto]. exists w2, s, s2, e2. auto.
Qed.
Lemma plain_start : forall W Y, grid (plain W) Y -> exists i j, is_tile W Y i j.
Proof.
  intros W Y G.
  assert (C : forall i j s e, Y (S i) (S j) = CD s e -> is_tile W Y i j).
  { intros i j s e E. pose proof (G i j) as H. rewrite E in H. apply plain_inv_CD in H. destruct H as (w & n & I & A & B). exists w, n, s, e. auto. }
  pose proof (G 2 2) as H. inversion H as [w n s e I H1 H2 H3|w n s e I H1 H2 H3|w n s e I H1 H2 H3|w n s e I H1 H2 H3].
  - exists 2, 2. eapply C. eauto.
  - exists 1, 2. eapply C. eauto.
  - exists 2, 1. eapply C. eauto.
  - pose proof (G 2 1) as H'. rewrite <- H1 in H'. inversion H'. exists 1, 1. eapply C. eauto.
Qed.
(** The tiling in a grid of step [k]. *)
Definition read_tile (k : nat) (Y : nat -> nat -> colour) (i j p q : nat) : tile :=
  let r := i + k * p in let c := j + k * q in
  (val (Y (S r) c), val (Y r (S c)), val (Y (S r) (S c)), val2 (Y (S r) (S c))).
Lemma read_tiling : forall k W Y i j,
  (forall p q, is_tile W Y (i + k * p) (j + k * q)) ->
  (forall p q, Y (S (i + k * p)) (j + k * S q) = T0 (val2 (Y (S (i + k * p)) (S (j + k * q))))) ->
  (forall p q, Y (i + k * S p) (S (j + k * q)) = T1 (val (Y (S (i + k * p)) (S (j + k * q))))) ->
  wang_tiling W (read_tile k Y i j).
Proof.
  intros k W Y i j T RI DO p q. split; [|split].
  - unfold read_tile. destruct (T p q) as (w & n & s & e & I & -> & -> & ->). auto.
  - unfold read_tile, east, west. rewrite RI. auto.
  - unfold read_tile, south, north. rewrite DO. auto.
Qed.
Lemma plain_wang : forall W Y, grid (plain W) Y -> exists i j, wang_tiling W (read_tile 2 Y i j).
Proof.
  intros W Y G. destruct (plain_start W Y G) as (i & j & H0). exists i, j.
  assert (T : forall p q, is_tile W Y (i + 2 * p) (j + 2 * q)).
  { induction p as [|p IH].
    - induction q as [|q IHq]; [rewrite !Nat.mul_0_r, !Nat.add_0_r; auto|]. replace (j + 2 * S q) with (j + 2 * q + 2) by lia. apply plain_right; auto.
    - intros q. replace (i + 2 * S p) with (i + 2 * p + 2) by lia. apply plain_down; auto. }
  apply read_tiling; auto; intros p q.
  - replace (j + 2 * S q) with (j + 2 * q + 2) by lia. apply (plain_right W Y (i + 2 * p) (j + 2 * q) G (T p q)).
  - replace (i + 2 * S p) with (i + 2 * p + 2) by lia. apply (plain_down W Y (i + 2 * p) (j + 2 * q) G (T p q)).
Qed.
Lemma read_repeats : forall k (Y : nat -> nat -> colour) i j m n, repeats Y m n -> repeats (read_tile k Y i j) m n.
Proof.
  intros k Y i j m n (H1 & H2 & H3 & H4).
  assert (A : forall c a b, Y (a + c * m) b = Y a b). { induction c as [|c IH]; intros a b; [rewrite Nat.add_0_r; auto|]. replace (a + S c * m) with (a + c * m + m) by lia. rewrite H3. auto. }
  assert (B : forall c a b, Y a (b + c * n) = Y a b). { induction c as [|c IH]; intros a b; [rewrite Nat.add_0_r; auto|]. replace (b + S c * n) with (b + c * n + n) by lia. rewrite H4. auto. }
  split; auto. split; auto. split.
  - intros p q. unfold read_tile. replace (S (i + k * (p + m))) with (S (i + k * p) + k * m) by lia. replace (i + k * (p + m)) with (i + k * p + k * m) by lia. rewrite !A. auto.
  - intros p q. unfold read_tile. replace (S (j + k * (q + n))) with (S (j + k * q) + k * n) by lia. replace (j + k * (q + n)) with (j + k * q + k * n) by lia. rewrite !B. auto.
Qed.

(** The grid of a tiling. *)
Definition paint2 (T : nat -> nat -> tile) (i j : nat) : colour :=
  let t := T (i / 2) (j / 2) in
  match i mod 2, j mod 2 with
  | 0, 0 => CD (south t) (east t)
  | 0, _ => T0 (east t)
  | _, 0 => T1 (south t)
  | _, _ => Doll
  end.
Lemma parity : forall i, exists p, (i = 2 * p /\ i / 2 = p /\ i mod 2 = 0 /\ S i / 2 = p /\ S i mod 2 = 1) \/ (i = 2 * p + 1 /\ i / 2 = p /\ i mod 2 = 1 /\ S i / 2 = S p /\ S i mod 2 = 0).
Proof.
  intros i. exists (i / 2). pose proof (Nat.div_mod i 2 ltac:(lia)) as D. pose proof (Nat.mod_upper_bound i 2 ltac:(lia)) as U.
  pose proof (Nat.div_mod (S i) 2 ltac:(lia)) as D'. pose proof (Nat.mod_upper_bound (S i) 2 ltac:(lia)) as U'. lia.
Qed.
Lemma paint2_grid : forall W T, wang_tiling W T -> grid (plain W) (paint2 T).
Proof.
  intros W T H i j. unfold paint2.
  destruct (parity i) as (p & [(_ & -> & -> & -> & ->)|(_ & -> & -> & -> & ->)]); destruct (parity j) as (q & [(_ & -> & -> & -> & ->)|(_ & -> & -> & -> & ->)]).
  - destruct (H p q) as (I & _). destruct (T p q) as (((w & n) & s) & e). cbn. eapply p4. eauto.
  - destruct (H p (S q)) as (I & _). destruct (T p (S q)) as (((w & n) & s) & e). cbn. eapply p2. eauto.
  - destruct (H (S p) q) as (I & _). destruct (T (S p) q) as (((w & n) & s) & e). cbn. eapply p3. eauto.
  - destruct (H (S p) q) as (_ & E & _). destruct (H p (S q)) as (_ & _ & E'). rewrite E, E'. destruct (H (S p) (S q)) as (I & _). destruct (T (S p) (S q)) as (((w & n) & s) & e). cbn. eapply p1. eauto.
Qed.
Lemma paint2_repeats : forall T m n, repeats T m n -> repeats (paint2 T) (2 * m) (2 * n).
Proof.
  intros T m n (H1 & H2 & H3 & H4). split; [lia|]. split; [lia|]. unfold paint2. split; intros i j.
  - replace (i + 2 * m) with (i + m * 2) by lia. rewrite Nat.div_add, Nat.mod_add by lia. rewrite H3. auto.
  - replace (j + 2 * n) with (j + n * 2) by lia. rewrite Nat.div_add, Nat.mod_add by lia. rewrite H4. auto.
Qed.

(** * The commutative rule *)
Definition is_tile3 (W : list tile) (Y : nat -> nat -> colour) (i j : nat) : Prop :=
  exists w n s e, In (w, n, s, e) W /\ Y (S i) j = T0 w /\ Y i (S j) = T1 n /\ Y (S i) (S j) = CD s e /\ Y (S i) (S (S j)) = T00 e /\ Y (S (S i)) (S j) = T11 s.
Ltac binv H := let A := fresh "A" in destruct H as [A|A]; inversion A; clear A; subst.
(** What follows right of and below a tile. *)
Lemma both_block : forall W c00 n1 c01 w1 c10 c11 n2 c02 c12 w2 c20 c21 c22 n3 c03 c13 w3 c30 c31 s e,
  c00 = CD s e -> c01 = T00 e ->
  both W c00 n1 c01 -> both W w1 c00 c10 -> both W c10 c01 c11 -> both W c01 n2 c02 -> both W c11 c02 c12 ->
  both W w2 c10 c20 -> both W c20 c11 c21 -> both W c21 c12 c22 -> both W c02 n3 c03 -> both W c12 c03 c13 -> both W w3 c20 c30 -> both W c30 c21 c31 ->
  c02 = T0 e /\ c20 = T1 s /\
  (exists n s' e', In (e, n, s', e') W /\ n3 = T1 n /\ c03 = CD s' e' /\ c13 = T11 s') /\
  (exists w s' e', In (w, s, s', e') W /\ w3 = T0 w /\ c30 = CD s' e' /\ c31 = T00 e').
Proof.
  intros W c00 n1 c01 w1 c10 c11 n2 c02 c12 w2 c20 c21 c22 n3 c03 c13 w3 c30 c31 s e -> -> B1 B2 B3 B4 B5 B6 B7 B8 B9 B10 B11 B12.
  binv B2; binv B3; binv B4; binv B5; binv B6; binv B7; binv B8; binv B9; binv B10; binv B11; binv B12; 
  (split; [reflexivity|split; [reflexivity|split; do 3 eexists; (split; [eassumption|auto])]]).
Qed.
Lemma both_orient : forall W c00 n1 c01 w1 c10 c11 s e, c00 = CD s e -> both W c00 n1 c01 -> both W w1 c00 c10 -> both W c10 c01 c11 ->
  (c01 = T00 e /\ c10 = T11 s) \/ (c01 = T11 s /\ c10 = T00 e).
Proof. intros W c00 n1 c01 w1 c10 c11 s e -> B1 B2 B3. binv B1; binv B2; binv B3; auto. Qed.
Lemma both_swap : forall W x y z, both W x y z -> both W y x z.
Proof. intros W x y z [H|H]; [right|left]; auto. Qed.
Lemma both_CD : forall W x y s e, both W x y (CD s e) -> exists w n, In (w, n, s, e) W /\ ((x = T0 w /\ y = T1 n) \/ (x = T1 n /\ y = T0 w)).
Proof. intros W x y s e H. binv H; do 2 eexists; (split; [eassumption|auto]). Qed.

Section Both.
Variable W : list tile.
Variable Y : nat -> nat -> colour.
Hypothesis G : grid (both W) Y.
Lemma both_next' : forall i j s e, Y (S i) (S j) = CD s e -> Y (S i) (S (S j)) = T00 e ->
  is_tile3 W Y i (j + 3) /\ is_tile3 W Y (i + 3) j /\
  Y (S i) (j + 3) = T0 (val2 (Y (S i) (S j))) /\ Y (i + 3) (S j) = T1 (val (Y (S i) (S j))).
Proof.
  intros i j s e C D.
  destruct (both_block W (Y (S i) (S j)) (Y i (S (S j))) (Y (S i) (S (S j))) (Y (S (S i)) j) (Y (S (S i)) (S j)) (Y (S (S i)) (S (S j)))
    (Y i (S (S (S j)))) (Y (S i) (S (S (S j)))) (Y (S (S i)) (S (S (S j)))) (Y (S (S (S i))) j) (Y (S (S (S i))) (S j)) (Y (S (S (S i))) (S (S j))) (Y (S (S (S i))) (S (S (S j))))
    (Y i (S (S (S (S j))))) (Y (S i) (S (S (S (S j))))) (Y (S (S i)) (S (S (S (S j))))) (Y (S (S (S (S i)))) j) (Y (S (S (S (S i)))) (S j)) (Y (S (S (S (S i)))) (S (S j))) s e)
    as (K1 & K2 & (n' & s' & e' & I' & M1 & M2 & M3) & (w'' & s'' & e'' & I'' & N1 & N2 & N3)); auto.
  replace (j + 3) with (S (S (S j))) by lia. replace (i + 3) with (S (S (S i))) by lia. rewrite C. cbn [val val2].
  assert (R4 : Y (S i) (S (S (S (S (S j))))) = T00 e').
  { destruct (both_orient W (Y (S i) (S (S (S (S j))))) (Y i (S (S (S (S (S j)))))) (Y (S i) (S (S (S (S (S j)))))) (Y (S (S i)) (S (S (S j)))) (Y (S (S i)) (S (S (S (S j))))) (Y (S (S i)) (S (S (S (S (S j)))))) s' e') as [(X1 & X2)|(X1 & X2)]; auto. congruence. }
  assert (D4 : Y (S (S (S (S (S i))))) (S j) = T11 s'').
  { destruct (both_orient W (Y (S (S (S (S i)))) (S j)) (Y (S (S (S i))) (S (S j))) (Y (S (S (S (S i)))) (S (S j))) (Y (S (S (S (S (S i))))) j) (Y (S (S (S (S (S i))))) (S j)) (Y (S (S (S (S (S i))))) (S (S j))) s'' e'') as [(X1 & X2)|(X1 & X2)]; auto. congruence. }
  split; [|split; [|split; auto]].
  - exists e, n', s', e'. auto 10.
  - exists w'', s, s'', e''. auto 10.
Qed.
Lemma both_next : forall i j, is_tile3 W Y i j ->
  is_tile3 W Y i (j + 3) /\ is_tile3 W Y (i + 3) j /\
  Y (S i) (j + 3) = T0 (val2 (Y (S i) (S j))) /\ Y (i + 3) (S j) = T1 (val (Y (S i) (S j))).
Proof. intros i j (w & n & s & e & _ & _ & _ & C & D & _). apply (both_next' i j s e); auto. Qed.
Lemma both_wang : forall i j, is_tile3 W Y i j -> wang_tiling W (read_tile 3 Y i j).
Proof.
  intros i j H0.
  assert (T : forall p q, is_tile3 W Y (i + 3 * p) (j + 3 * q)).
  { induction p as [|p IH].
    - induction q as [|q IHq]; [rewrite !Nat.mul_0_r, !Nat.add_0_r; auto|]. replace (j + 3 * S q) with (j + 3 * q + 3) by lia. apply both_next; auto.
    - intros q. replace (i + 3 * S p) with (i + 3 * p + 3) by lia. apply both_next; auto. }
  apply read_tiling; intros p q.
  - destruct (T p q) as (w & n & s & e & I & A & B & C & _). exists w, n, s, e. auto.
  - replace (j + 3 * S q) with (j + 3 * q + 3) by lia. apply (both_next (i + 3 * p) (j + 3 * q) (T p q)).
  - replace (i + 3 * S p) with (i + 3 * p + 3) by lia. apply (both_next (i + 3 * p) (j + 3 * q) (T p q)).
Qed.
(** Some cell is a tile, in one of the two directions. *)
Lemma both_start : exists i j s e, Y (S i) (S j) = CD s e.
Proof.
  assert (P1 : forall i j v, Y (S (S i)) (S (S j)) = T00 v -> exists i j s e, Y (S i) (S j) = CD s e).
  { intros i j v E. pose proof (G (S i) (S j)) as H. rewrite E in H. destruct H as [H|H]; inversion H; subst; eauto. }
  assert (P2 : forall i j v, Y (S (S i)) (S (S j)) = T11 v -> exists i j s e, Y (S i) (S j) = CD s e).
  { intros i j v E. pose proof (G (S i) (S j)) as H. rewrite E in H. destruct H as [H|H]; inversion H; subst; eauto. }
  assert (P3 : forall i j, Y (S (S (S i))) (S (S (S j))) = Hash -> exists i j s e, Y (S i) (S j) = CD s e).
  { intros i j E. pose proof (G (S (S i)) (S (S j))) as H. rewrite E in H. destruct H as [H|H]; inversion H; subst; eauto. }
  assert (P4 : forall i j, Y (S (S (S (S i)))) (S (S (S (S j)))) = Id11 -> exists i j s e, Y (S i) (S j) = CD s e).
  { intros i j E. pose proof (G (S (S (S i))) (S (S (S j)))) as H. rewrite E in H. destruct H as [H|H]; inversion H; subst; eauto. }
  assert (P5 : forall i j, Y (S (S (S (S (S i))))) (S (S (S (S (S j))))) = Doll -> exists i j s e, Y (S i) (S j) = CD s e).
  { intros i j E. pose proof (G (S (S (S (S i)))) (S (S (S (S j))))) as H. rewrite E in H. destruct H as [H|H]; inversion H; subst; eauto. }
  pose proof (G 7 7) as H. destruct H as [H|H]; inversion H; subst; eauto.
Qed.
End Both.
Lemma transpose_grid : forall W Y, grid (both W) Y -> grid (both W) (fun i j => Y j i).
Proof. intros W Y G i j. apply both_swap. apply G. Qed.
Lemma both_found : forall W Y, grid (both W) Y -> (exists i j, wang_tiling W (read_tile 3 Y i j)) \/ (exists i j, wang_tiling W (read_tile 3 (fun i j => Y j i) i j)).
Proof.
  intros W Y G. destruct (both_start W Y G) as (i & j & s & e & C).
  pose proof (both_orient W (Y (S i) (S j)) (Y i (S (S j))) (Y (S i) (S (S j))) (Y (S (S i)) j) (Y (S (S i)) (S j)) (Y (S (S i)) (S (S j))) s e C (G i (S j)) (G (S i) j) (G (S i) (S j))) as O.
  destruct O as [(O1 & O2)|(O1 & O2)].
  - left. exists i, (j + 3). apply both_wang; auto. apply (both_next' W Y G i j s e); auto.
  - right. exists j, (i + 3). apply both_wang; [apply transpose_grid; auto|]. apply (both_next' W _ (transpose_grid W Y G) j i s e); auto.
Qed.
Lemma transpose_repeats : forall (Y : nat -> nat -> colour) m n, repeats Y m n -> repeats (fun i j => Y j i) n m.
Proof. intros Y m n (H1 & H2 & H3 & H4). split; auto. Qed.

(** The grid of a tiling. *)
Definition paint3 (T : nat -> nat -> tile) (i j : nat) : colour :=
  let t := T (i / 3) (j / 3) in
  match i mod 3, j mod 3 with
  | 0, 0 => CD (south t) (east t)
  | 0, 1 => T00 (east t)
  | 0, _ => T0 (east t)
  | 1, 0 => T11 (south t)
  | 1, 1 => Hash
  | 1, _ => Id11
  | _, 0 => T1 (south t)
  | _, 1 => Id00
  | _, _ => Doll
  end.
Lemma thirds : forall i, exists p, (i / 3 = p /\ i mod 3 = 0 /\ S i / 3 = p /\ S i mod 3 = 1) \/ (i / 3 = p /\ i mod 3 = 1 /\ S i / 3 = p /\ S i mod 3 = 2) \/ (i / 3 = p /\ i mod 3 = 2 /\ S i / 3 = S p /\ S i mod 3 = 0).
Proof.
  intros i. exists (i / 3). pose proof (Nat.div_mod i 3 ltac:(lia)) as D. pose proof (Nat.mod_upper_bound i 3 ltac:(lia)) as U.
  pose proof (Nat.div_mod (S i) 3 ltac:(lia)) as D'. pose proof (Nat.mod_upper_bound (S i) 3 ltac:(lia)) as U'. lia.
Qed.
Lemma paint3_grid : forall W T, wang_tiling W T -> grid (both W) (paint3 T).
Proof.
  intros W T H i j. unfold paint3. left.
  destruct (thirds i) as (p & [(-> & -> & -> & ->)|[(-> & -> & -> & ->)|(-> & -> & -> & ->)]]); destruct (thirds j) as (q & [(-> & -> & -> & ->)|[(-> & -> & -> & ->)|(-> & -> & -> & ->)]]).
  - destruct (H p q) as (I & _). destruct (T p q) as (((w & n) & s) & e). cbn. eapply h5. eauto.
  - destruct (H p q) as (I & _). destruct (T p q) as (((w & n) & s) & e). cbn. eapply h6. eauto.
  - destruct (H p (S q)) as (I & _). destruct (T p (S q)) as (((w & n) & s) & e). cbn. eapply h4. eauto.
  - destruct (H p q) as (I & _). destruct (T p q) as (((w & n) & s) & e). cbn. eapply h8. eauto.
  - destruct (H p q) as (I & _). destruct (T p q) as (((w & n) & s) & e). cbn. eapply h9. eauto.
  - destruct (H p (S q)) as (I & _). destruct (T p (S q)) as (((w & n) & s) & e). cbn. eapply h7. eauto.
  - destruct (H (S p) q) as (I & _). destruct (T (S p) q) as (((w & n) & s) & e). cbn. eapply h2. eauto.
  - destruct (H (S p) q) as (I & _). destruct (T (S p) q) as (((w & n) & s) & e). cbn. eapply h3. eauto.
  - destruct (H (S p) q) as (_ & E & _). destruct (H p (S q)) as (_ & _ & E'). rewrite E, E'. destruct (H (S p) (S q)) as (I & _). destruct (T (S p) (S q)) as (((w & n) & s) & e). cbn. eapply h1. eauto.
Qed.
Lemma paint3_repeats : forall T m n, repeats T m n -> repeats (paint3 T) (3 * m) (3 * n).
Proof.
  intros T m n (H1 & H2 & H3 & H4). split; [lia|]. split; [lia|]. unfold paint3. split; intros i j.
  - replace (i + 3 * m) with (i + m * 3) by lia. rewrite Nat.div_add, Nat.mod_add by lia. rewrite H3. auto.
  - replace (j + 3 * n) with (j + n * 3) by lia. rewrite Nat.div_add, Nat.mod_add by lia. rewrite H4. auto.
Qed.

(** * The constraint check *)
Lemma guard_in_iff : forall a b gs, guard_in (a, b) gs = true <-> In (a, b) gs.
Proof.
  intros a b gs. unfold guard_in. rewrite existsb_exists. split.
  - intros ((x & y) & I & E). cbn [fst snd] in E. apply andb_true_iff in E. rewrite !Nat.eqb_eq in E. destruct E as (-> & ->). auto.
  - intros I. exists (a, b). split; auto. cbn. rewrite !Nat.eqb_refl. auto.
Qed.
Lemma collect_guards_spec : forall acts gs, NoDup acts ->
  (forall a b c, In (a, b, c) acts -> ~ In (a, b) gs) ->
  (deterministic (protocol_of acts) -> exists gs', collect_guards acts gs = Some gs') /\
  forall gs', collect_guards acts gs = Some gs' -> deterministic (protocol_of acts) /\ forall a b, In (a, b) gs' <-> In (a, b) gs \/ exists c, In (a, b, c) acts.
Proof.
  induction acts as [|((a & b) & c) acts IH]; intros gs ND F; cbn [collect_guards].
  - split; [eauto|]. intros gs' H. injection H as <-. split; [intros x y z z' []|]. intros a b. split; auto. intros [H|(c & [])]. auto.
  - assert (G0 : guard_in (a, b) gs = false). { destruct (guard_in (a, b) gs) eqn:E; auto. apply guard_in_iff in E. exfalso. apply (F a b c); auto. left. auto. } rewrite G0.
    inversion ND as [|? ? NI ND']; subst.
    destruct (existsb (fun x : UniAct => let '(d, e, f) := x in (d =? a) && (e =? b)) acts) eqn:EX.
    + apply existsb_exists in EX. destruct EX as (((d & e) & f) & I & E). apply andb_true_iff in E. rewrite !Nat.eqb_eq in E. destruct E as (-> & ->).
      assert (NE : c <> f) by (intros ->; contradiction). split.
      * intros DT. exfalso. apply NE. apply (DT a b); [left; auto|right; auto].
      * intros gs' H. exfalso. assert (ST : forall l gs, In (a, b) gs -> In (a, b, f) l -> collect_guards l gs = None).
        { induction l as [|((x & y) & z) l IHl]; intros g I1 I2; [destruct I2|]. cbn [collect_guards]. destruct (guard_in (x, y) g) eqn:Q; auto. destruct I2 as [E|I2].
          - injection E as -> -> ->. exfalso. apply guard_in_iff in I1. congruence.
          - apply IHl; auto. right. auto. }
        rewrite ST in H; [discriminate|left; auto|auto].
    + assert (NOT : forall f, ~ In (a, b, f) acts). { intros f I. assert (existsb (fun x : UniAct => let '(d, e, f) := x in (d =? a) && (e =? b)) acts = true) by (apply existsb_exists; exists (a, b, f); split; auto; rewrite !Nat.eqb_refl; auto). congruence. }
      destruct (IH ((a, b) :: gs) ND') as (IH1 & IH2).
      { intros x y z I [E|E]; [injection E as -> ->; exact (NOT z I)|]. apply (F x y z); auto. right. auto. }
      split.
      * intros DT. apply IH1. intros x y z z' H1 H2. apply (DT x y); right; auto.
      * intros gs' H. destruct (IH2 gs' H) as (DT & GS). split.
        -- intros x y z z' [H1|H1] [H2|H2]; [congruence| | |apply (DT x y); auto].
           ++ injection H1 as -> -> ->. exfalso. exact (NOT z' H2).
           ++ injection H2 as -> -> ->. exfalso. exact (NOT z H1).
        -- intros x y. rewrite GS. cbn [In]. split.
           ++ intros [[E|I]|(z & I)]; [injection E as -> ->; right; exists c; auto|auto|right; exists z; auto].
           ++ intros [I|(z & [E|I])]; [auto|injection E as -> -> ->; auto|right; exists z; auto].
Qed.
Lemma check_constraints_spec : forall acts commutative, NoDup acts ->
  (check_constraints acts commutative = true <->
   deterministic (protocol_of acts) /\ self_disabling (protocol_of acts) /\ N_disabling (protocol_of acts) /\
   (commutative = true -> commutative_protocol (protocol_of acts))).
Proof.
  intros acts cm ND. unfold check_constraints. destruct (collect_guards_spec acts [] ND) as (C1 & C2); [intros a b c _ []|].
  destruct (collect_guards acts []) as [gs|] eqn:E.
  2: { split; [discriminate|]. intros (D & _). destruct (C1 D) as (gs & H). discriminate. }
  destruct (C2 gs eq_refl) as (DT & GS). rewrite forallb_forall. split.
  - intros H. split; auto.
    assert (K : forall a b c, In (a, b, c) acts -> ~ In (a, c) gs /\ ~ In (c, b) gs /\ (cm = true -> In (b, a, c) acts)).
    { intros a b c I. specialize (H (a, b, c) I). cbn beta iota in H. rewrite !andb_true_iff, orb_true_iff, !negb_true_iff in H. destruct H as ((H1 & H2) & H3).
      split; [intros X; apply guard_in_iff in X; congruence|]. split; [intros X; apply guard_in_iff in X; congruence|]. intros ->. destruct H3 as [H3|H3]; [discriminate|].
      apply existsb_exists in H3. destruct H3 as (x & X & Q). apply act_eqb_eq in Q. subst x. auto. }
    split; [|split].
    + intros a b c d I I'. destruct (K a b c I) as (X & _). apply X. apply GS. right. exists d. auto.
    + intros a b c d I I'. destruct (K a b c I) as (_ & X & _). apply X. apply GS. right. exists d. auto.
    + intros CM a b c I. destruct (K a b c I) as (_ & _ & X). apply X. auto.
  - intros (_ & SD & NDI & CM) ((a & b) & c) I. rewrite !andb_true_iff, orb_true_iff, !negb_true_iff. split; [split|].
    + destruct (guard_in (a, c) gs) eqn:Q; auto. apply guard_in_iff in Q. apply GS in Q. destruct Q as [[]|(d & Q)]. exfalso. exact (SD a b c d I Q).
    + destruct (guard_in (c, b) gs) eqn:Q; auto. apply guard_in_iff in Q. apply GS in Q. destruct Q as [[]|(d & Q)]. exfalso. exact (NDI a b c d I Q).
    + destruct cm; auto. right. apply existsb_exists. exists (b, a, c). split; [apply CM; auto|]. apply act_eqb_eq. auto.
Qed.
