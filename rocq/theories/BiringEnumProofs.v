(** Renamings, the canonical table, and the enumeration. *)
From Coq Require Import List Arith Bool Lia.
From Verif Require Import Radix BiringModel BiringSpec BiringProofs BiringProofs2 BiringProofs3 BiringProps
  BiringEnumModel BiringEnumSpec.
Import ListNotations.

(** * The maps *)
Section Maps.
Variable M : nat.
Definition onto (f : nat -> nat) : Prop := forall v, v < M -> exists k, k < M /\ f k = v.

Lemma swap_tau : forall f i j k, swap f i j k = f (if k =? i then j else if k =? j then i else k).
Proof. intros. unfold swap. destruct (k =? i), (k =? j); auto. Qed.

Lemma swap_ok : forall f i j, i < M -> j < M -> renaming M f -> onto f -> renaming M (swap f i j) /\ onto (swap f i j).
Proof.
  intros f i j Hi Hj (R1 & R2) O. split; [split|].
  - intros k Hk. rewrite swap_tau. apply R1. destruct (k =? i), (k =? j); auto.
  - intros a b Ha Hb. rewrite !swap_tau. intros E.
    apply R2 in E; [|destruct (a =? i), (a =? j); auto|destruct (b =? i), (b =? j); auto].
    destruct (Nat.eqb_spec a i), (Nat.eqb_spec a j), (Nat.eqb_spec b i), (Nat.eqb_spec b j); lia.
  - intros v Hv. destruct (O v Hv) as (k & K1 & K2).
    exists (if k =? i then j else if k =? j then i else k). split; [destruct (k =? i), (k =? j); auto|].
    rewrite swap_tau. rewrite <- K2. f_equal.
    destruct (Nat.eqb_spec k i), (Nat.eqb_spec k j); subst; rewrite ?Nat.eqb_refl; auto;
      repeat (match goal with |- context [?x =? ?y] => destruct (Nat.eqb_spec x y) end); lia.
Qed.

Lemma perm_of_ok : forall n vals i f, i + n <= M -> Forall2 lt vals (map (fun k => M - k) (seq i n)) -> renaming M f -> onto f ->
  renaming M (perm_of f i vals) /\ onto (perm_of f i vals).
Proof.
  induction n as [|n IH]; intros vals i f Hn F R O; cbn in F; inversion F; subst; cbn [perm_of]; auto.
  destruct (swap_ok f i (i + x)) as (R' & O'); auto; try lia. apply IH; auto. lia.
Qed.

Lemma perm_of_complete : forall n i f p, i + n <= M -> renaming M f -> onto f -> renaming M p -> (forall k, k < i -> f k = p k) ->
  exists vals, Forall2 lt vals (map (fun k => M - k) (seq i n)) /\ forall k, k < i + n -> perm_of f i vals k = p k.
Proof.
  induction n as [|n IH]; intros i f p Hn R O P A.
  - exists []. split; [constructor|]. intros k Hk. cbn. apply A. lia.
  - destruct (O (p i)) as (j & J1 & J2); [apply P; lia|].
    assert (J3 : i <= j).
    { destruct (Nat.le_gt_cases i j); auto. exfalso. rewrite A in J2 by auto. destruct P as (_ & P). apply P in J2; lia. }
    destruct (swap_ok f i j) as (R' & O'); auto; try lia.
    destruct (IH (S i) (swap f i j) p) as (vals & V1 & V2); auto; try lia.
    { intros k Hk. unfold swap. destruct (Nat.eqb_spec k i) as [->|]; auto. destruct (Nat.eqb_spec k j); [lia|]. apply A. lia. }
    exists ((j - i) :: vals). split.
    + cbn. constructor; auto. lia.
    + intros k Hk. cbn [perm_of]. replace (i + (j - i)) with j by lia. apply V2. lia.
Qed.

Lemma id_ok : renaming M (fun k => k) /\ onto (fun k => k).
Proof. split; [split; auto|]. intros v Hv. exists v. auto. Qed.

Lemma perm_maps_ok : forall f, In f (perm_maps M) -> renaming M f /\ onto f.
Proof.
  intros f H. unfold perm_maps in H. apply in_map_iff in H. destruct H as (idx & <- & H). apply in_seq in H.
  destruct (state_of_index_spec (perm_doms M) idx) as (S1 & _); [lia|]. unfold perm_doms in *.
  destruct id_ok. apply (perm_of_ok (M - 1)); auto. lia.
Qed.

Lemma perm_maps_complete : forall p, renaming M p -> exists f, In f (perm_maps M) /\ forall k, k < M -> f k = p k.
Proof.
  intros p P. destruct id_ok as (I1 & I2).
  destruct (perm_of_complete (M - 1) 0 (fun k => k) p) as (vals & V1 & V2); auto; [lia|intros; lia|].
  destruct (perm_of_ok (M - 1) vals 0 (fun k => k)) as (R & O); auto; [lia|].
  exists (perm_of (fun k => k) 0 vals). split.
  - unfold perm_maps. apply in_map_iff. exists (index_of_state vals (perm_doms M)). split.
    + rewrite state_of_index_of_state; auto.
    + apply in_seq. split; [lia|]. cbn [plus]. apply index_lt. auto.
  - intros k Hk. destruct (Nat.lt_ge_cases k (M - 1)) as [H|H]; [apply V2; lia|].
    assert (k = M - 1) by lia. destruct (O (p k)) as (j & J1 & J2); [apply P; auto|].
    destruct (Nat.eq_dec j k) as [->|X]; auto. exfalso. rewrite V2 in J2 by lia. destruct P as (_ & P). apply P in J2; auto.
Qed.

Lemma renaming_onto : forall p, renaming M p -> onto p.
Proof.
  intros p P v Hv. destruct (perm_maps_complete p P) as (f & F1 & F2). destruct (perm_maps_ok f F1) as (_ & O).
  destruct (O v Hv) as (k & K1 & K2). exists k. split; auto. rewrite <- F2; auto.
Qed.

Lemma renaming_inverse : forall f, renaming M f -> exists g, renaming M g /\ forall k, k < M -> g (f k) = k.
Proof.
  intros f R. pose proof (renaming_onto f R) as O. destruct R as (R1 & R2).
  exists (fun v => match find (fun k => f k =? v) (seq 0 M) with Some k => k | None => 0 end).
  assert (G : forall k, k < M -> match find (fun k0 => f k0 =? f k) (seq 0 M) with Some k0 => k0 | None => 0 end = k).
  { intros k Hk. destruct (find (fun k0 => f k0 =? f k) (seq 0 M)) as [j|] eqn:E.
    - apply find_some in E. destruct E as (E1 & E2). apply in_seq in E1. apply Nat.eqb_eq in E2. apply R2; auto. lia.
    - exfalso. assert (Y : (f k =? f k) = false) by (apply (find_none _ _ E k); apply in_seq; lia).
      rewrite Nat.eqb_refl in Y. discriminate. }
  split; [|exact G]. split.
  - intros v Hv. destruct (O v Hv) as (k & K1 & <-). rewrite G; auto.
  - intros v w Hv Hw. destruct (O v Hv) as (k & K1 & <-). destruct (O w Hw) as (j & J1 & <-). rewrite !G by auto. congruence.
Qed.
End Maps.

(** * Tables *)
Lemma ck_clear : forall (s : bits) i, ck (set_bit s i false) i = false.
Proof. unfold ck. induction s as [|x s IH]; intros [|i]; cbn; auto. Qed.

Section Tables.
Variable M : nat.
Notation size := (M * M * M).

Lemma place_inj : forall v w, valid M v -> valid M w -> place M v = place M w -> v = w.
Proof. intros v w Hv Hw E. rewrite <- (config_place M v Hv), <- (config_place M w Hw), E. auto. Qed.

Lemma fold_set_true : forall (g : nat -> nat) l z j, (forall i, In i l -> g i < length z) ->
  length (fold_left (fun bt i => set_bit bt (g i) true) l z) = length z /\
  (ck (fold_left (fun bt i => set_bit bt (g i) true) l z) j = true <-> ck z j = true \/ exists i, In i l /\ j = g i).
Proof.
  intros g. induction l as [|i l IH]; intros z j H; cbn [fold_left].
  - split; auto. split; auto. intros [K|(i & [] & _)]. auto.
  - destruct (IH (set_bit z (g i) true) j) as (L & E).
    { intros k Hk. rewrite set_bit_length. apply H. right. auto. }
    rewrite set_bit_length in L. split; auto. rewrite E. rewrite ck_set_bit by (apply H; left; auto).
    destruct (Nat.eqb_spec (g i) j) as [<-|X].
    + split; auto. intros _. right. exists i. split; [left|]; auto.
    + split; (intros [K|(k & K1 & K2)]; [auto|right]); [exists k; split; [right|]; auto|].
      destruct K1 as [<-|K1]; [congruence|]. exists k. auto.
Qed.

Lemma fold_set_false : forall (g : nat -> nat) l z, length (fold_left (fun bt i => set_bit bt (g i) false) l z) = length z /\
  forall j, ck (fold_left (fun bt i => set_bit bt (g i) false) l z) j = true -> ck z j = true.
Proof.
  intros g. induction l as [|i l IH]; intros z; cbn [fold_left]; auto.
  destruct (IH (set_bit z (g i) false)) as (L & E). rewrite set_bit_length in L. split; auto. intros j K. apply E in K.
  destruct (Nat.lt_ge_cases (g i) (length z)) as [B|B].
  - rewrite ck_set_bit in K by auto. destruct (g i =? j); [discriminate|auto].
  - assert (X : forall (s : bits) k b, length s <= k -> set_bit s k b = s).
    { clear. induction s as [|x s IH]; intros [|k] b H; cbn in *; auto; try lia. f_equal. apply IH. lia. }
    rewrite X in K; auto.
Qed.

Definition moved (f : nat -> nat) (i : nat) : nat := index_of_state (map f (state_of_index i [M; M; M])) [M; M; M].
Lemma moved_place : forall f a b d, a < M -> b < M -> d < M -> moved f (place M (a, b, d)) = place M (f a, f b, f d).
Proof.
  intros f a b d Ha Hb Hd. unfold moved. rewrite <- (enum_place M (a, b, d)), <- (enum_place M (f a, f b, f d)).
  unfold enum_idx_of_pc_config. rewrite state_of_index_of_state; auto.
Qed.

Lemma permute_renamed : forall s f, length s = size -> renaming M f -> renamed M f s (permute_pc_config M s f).
Proof.
  intros s f L (R1 & R2).
  assert (V : forall i, i < size -> exists a b d, a < M /\ b < M /\ d < M /\ i = place M (a, b, d)).
  { intros i Hi. destruct (place_config M i Hi) as (V1 & V2). destruct (pc_config_of_enum_idx M i) as ((a & b) & d).
    exists a, b, d. destruct V1 as (X & Y & Z). auto. }
  assert (B : forall i, In i (members s) -> moved f i < length (repeat false (length s))).
  { intros i Hi. apply members_in, ck_bound in Hi. rewrite L in Hi. destruct (V i Hi) as (a & b & d & Ha & Hb & Hd & ->).
    rewrite moved_place, repeat_length, L by auto. apply place_bound. cbn. auto. }
  split.
  - destruct (fold_set_true (moved f) (members s) (repeat false (length s)) 0 B) as (X & _).
    rewrite repeat_length in X. exact X.
  - intros a b d Ha Hb Hd. change (ck (permute_pc_config M s f) (place M (f a, f b, f d)) = true <-> ck s (place M (a, b, d)) = true).
    destruct (fold_set_true (moved f) (members s) (repeat false (length s)) (place M (f a, f b, f d)) B) as (_ & X).
    transitivity (ck (repeat false (length s)) (place M (f a, f b, f d)) = true \/ exists i, In i (members s) /\ place M (f a, f b, f d) = moved f i);
      [exact X|]. rewrite ck_zero. split.
    + intros [Y|(i & I1 & I2)]; [discriminate|]. apply members_in in I1. pose proof (ck_bound _ _ I1) as I3. rewrite L in I3.
      destruct (V i I3) as (a' & b' & d' & Ha' & Hb' & Hd' & ->). rewrite moved_place in I2 by auto.
      apply place_inj in I2; [|cbn; auto|cbn; auto]. injection I2 as E1 E2 E3.
      apply R2 in E1; auto. apply R2 in E2; auto. apply R2 in E3; auto. subst. auto.
    + intros K. right. exists (place M (a, b, d)). rewrite members_in, moved_place; auto.
Qed.

Lemma renamed_unique : forall f g s t u, length s = size -> renaming M f -> (forall k, k < M -> f k = g k) ->
  renamed M f s t -> renamed M g s u -> t = u.
Proof.
  intros f g s t u L R A (T1 & T2) (U1 & U2). pose proof (renaming_onto M f R) as O.
  apply bits_ext; [congruence|]. intros i. destruct (Nat.lt_ge_cases i size) as [H|H].
  - destruct (place_config M i H) as (V1 & V2). destruct (pc_config_of_enum_idx M i) as ((a & b) & d). destruct V1 as (X & Y & Z).
    destruct (O a X) as (a' & A1 & <-). destruct (O b Y) as (b' & B1 & <-). destruct (O d Z) as (d' & D1 & <-).
    rewrite <- V2. apply eq_true_iff_eq. etransitivity; [apply (T2 a' b' d'); auto|]. symmetry. rewrite !A by auto. apply U2; auto.
  - unfold ck. rewrite !nth_overflow; auto; [rewrite U1|rewrite T1]; unfold bits in *; lia.
Qed.

Lemma iso_refl : forall s, isomorphic M s s.
Proof. intros s. exists (fun k => k). split; [apply id_ok|]. split; auto. tauto. Qed.

Lemma iso_sym : forall s t, isomorphic M s t -> isomorphic M t s.
Proof.
  intros s t (f & R & T1 & T2). destruct (renaming_inverse M f R) as (g & G1 & G2). pose proof (renaming_onto M f R) as O.
  exists g. split; auto. split; auto. intros a b d Ha Hb Hd.
  destruct (O a Ha) as (a' & A1 & <-). destruct (O b Hb) as (b' & B1 & <-). destruct (O d Hd) as (d' & D1 & <-).
  rewrite !G2 by auto. symmetry. apply T2; auto.
Qed.

Lemma iso_trans : forall s t u, isomorphic M s t -> isomorphic M t u -> isomorphic M s u.
Proof.
  intros s t u (f & (F1 & F2) & T1 & T2) (g & (G1 & G2) & U1 & U2). exists (fun k => g (f k)). split.
  - split; [auto|]. intros j k Hj Hk E. apply G2 in E; auto.
  - split; [congruence|]. intros a b d Ha Hb Hd. rewrite U2 by auto. apply T2; auto.
Qed.

Lemma iso_in : forall s t, length s = size -> isomorphic M s t -> exists f, In f (perm_maps M) /\ t = permute_pc_config M s f.
Proof.
  intros s t L (p & P & T). destruct (perm_maps_complete M p P) as (f & F1 & F2). exists f. split; auto.
  destruct (perm_maps_ok M f F1) as (R & _). symmetry. apply (renamed_unique f p s); auto. apply permute_renamed; auto.
Qed.

(** * The canonical table *)
Variable gt : bits -> bits -> bool.
Hypothesis Hgt : strict_total gt.

Lemma canonical_fold : forall (h : (nat -> nat) -> bits) l m,
  let r := fold_left (fun min f => if gt (h f) min then h f else min) l m in
  (r = m \/ exists f, In f l /\ r = h f) /\ gt m r = false /\ forall f, In f l -> gt (h f) r = false.
Proof.
  destruct Hgt as (G1 & G2 & G3). intros h. induction l as [|f l IH]; intros m; cbn [fold_left].
  - cbn. split; auto. split; auto. intros f [].
  - destruct (gt (h f) m) eqn:E.
    + destruct (IH (h f)) as (I1 & I2 & I3). cbn in *. split; [|split].
      * right. destruct I1 as [I1|(g & I1 & I4)]; [exists f|exists g]; auto.
      * match goal with |- ?x = false => destruct x eqn:X end; auto. rewrite (G2 _ _ _ E X) in I2. discriminate.
      * intros g [<-|Hg]; auto.
    + destruct (IH m) as (I1 & I2 & I3). cbn in *. split; [|split; auto].
      * destruct I1 as [I1|(g & I1 & I4)]; auto. right. exists g. auto.
      * intros g [<-|Hg]; auto. match goal with |- ?x = false => destruct x eqn:X end; auto.
        set (r := fold_left _ _ _) in *.
        destruct (list_eq_dec bool_dec r m) as [Y|Y]; [rewrite Y in X; congruence|].
        destruct (G3 r m Y) as [Z|Z]; [|congruence]. rewrite (G2 _ _ _ X Z) in E. discriminate.
Qed.

Lemma canonical_iso : forall s, length s = size -> isomorphic M s (canonical_set M gt s).
Proof.
  intros s L. destruct (canonical_fold (permute_pc_config M s) (perm_maps M) s) as ([X|(f & F1 & X)] & _).
  - change (canonical_set M gt s = s) in X. rewrite X. apply iso_refl.
  - change (canonical_set M gt s = permute_pc_config M s f) in X. rewrite X. exists f. destruct (perm_maps_ok M f F1) as (R & _). split; auto. apply permute_renamed; auto.
Qed.

Lemma canonical_max : forall s t, length s = size -> isomorphic M s t -> gt t (canonical_set M gt s) = false.
Proof.
  intros s t L I. destruct (iso_in s t L I) as (f & F1 & ->).
  destruct (canonical_fold (permute_pc_config M s) (perm_maps M) s) as (_ & _ & X). apply X. auto.
Qed.

Lemma iso_length : forall s t, isomorphic M s t -> length t = length s.
Proof. intros s t (f & _ & L & _). auto. Qed.

Lemma canonical_iff : forall s t, length s = size -> length t = size ->
  (canonical_set M gt s = canonical_set M gt t <-> isomorphic M s t).
Proof.
  intros s t Ls Lt. split.
  - intros E. apply (iso_trans s (canonical_set M gt s)); [apply canonical_iso; auto|]. rewrite E. apply iso_sym, canonical_iso; auto.
  - intros I. pose proof (canonical_iso s Ls) as Is. pose proof (canonical_iso t Lt) as It.
    assert (X : gt (canonical_set M gt s) (canonical_set M gt t) = false).
    { apply canonical_max; auto. apply (iso_trans t s); auto. apply iso_sym. auto. }
    assert (Y : gt (canonical_set M gt t) (canonical_set M gt s) = false).
    { apply canonical_max; auto. apply (iso_trans s t); auto. }
    destruct (list_eq_dec bool_dec (canonical_set M gt s) (canonical_set M gt t)) as [E|E]; auto.
    destruct Hgt as (_ & _ & G). destruct (G _ _ E); congruence.
Qed.

(** * Renamed rings *)
Lemma iso_ring : forall f s t n x, renaming M f -> renamed M f s t -> legit_ring M (in_table M s) n x ->
  legit_ring M (in_table M t) n (fun i => f (x i)) /\
  forall i, view n (fun i => f (x i)) i = (f (fst (fst (view n x i))), f (snd (fst (view n x i))), f (snd (view n x i))).
Proof.
  intros f s t n x R (T1 & T2) (H1 & H2 & H3). split; [|intros i; reflexivity].
  split; auto. split; [intros i Hi; apply R; auto|]. intros i Hi. unfold view. apply T2; auto; try (apply H2; apply Nat.mod_upper_bound; lia).
  apply (H3 i Hi).
Qed.

Lemma iso_occurs : forall f s t a b d, renaming M f -> renamed M f s t ->
  occurs M (in_table M s) (a, b, d) -> occurs M (in_table M t) (f a, f b, f d).
Proof.
  intros f s t a b d R T (n & x & i & X1 & X2 & X3). destruct (iso_ring f s t n x R T X1) as (Y1 & Y2).
  exists n, (fun i => f (x i)), i. split; auto. split; auto. rewrite Y2, X3. auto.
Qed.

Lemma iso_satisfiable : forall s t n, isomorphic M s t -> satisfiable M (in_table M s) n -> satisfiable M (in_table M t) n.
Proof. intros s t n (f & R & T) (x & X). exists (fun i => f (x i)). apply (iso_ring f s t n x R T X). Qed.
End Tables.

(** * The enumeration *)
Section Enum.
Variable M : nat.
Notation size := (M * M * M).
Variable gt : bits -> bits -> bool.
Hypothesis Hgt : strict_total gt.
Variables (pair : bool) (minsz fuel : nat) (start : bits).
Hypothesis Hfuel : 2 ^ size < fuel.

Definition sizes_ok (t : bits) : Prop :=
  if minsz =? 0 then exists N, forall n, N <= n -> 1 <= n -> satisfiable M (in_table M t) n
  else forall n, minsz <= n -> satisfiable M (in_table M t) n.
Definition below (s : bits) : Prop := length s = size /\ forall i, ck s i = true -> ck start i = true.
Definition good (c : bits) : Prop :=
  length c = size /\ canonical_set M gt c = c /\ sizes_ok c /\
  (forall a b d, a < M -> b < M -> d < M -> in_table M c (a, b, d) -> occurs M (in_table M c) (a, b, d)) /\
  exists s, below s /\ isomorphic M s c.
Definition Inv (db : list bits) : Prop := NoDup db /\ forall c, In c db -> good c.

Lemma enter_inv : forall loop set db,
  (forall s db0, below s -> Inv db0 -> exists db', loop s db0 = Some db' /\ Inv db') ->
  below set -> Inv db -> exists db', enter M gt minsz fuel loop set db = Some db' /\ Inv db'.
Proof.
  intros loop set db HL (L & Hb) I. unfold enter.
  destruct (C101_fixpoint M set L) as (s & E & Ls & F). rewrite E. rewrite L in Ls.
  assert (Sub : forall i, ck s i = true -> ck set i = true).
  { intros i K. destruct (biring_fixpoint_spec M set) as (s2 & E2 & _ & F2 & _). assert (s2 = s) by congruence. subst s2.
    apply F2 in K. destruct K as (k & W). eapply walk_ck. exact W. }
  assert (Bs : below s) by (split; auto).
  assert (SZ : exists b, biring_sat_ck M fuel s minsz = Some b /\ (b = true -> sizes_ok s)).
  { unfold sizes_ok. destruct (Nat.eqb_spec minsz 0) as [->|H0].
    - destruct (C101_large M s fuel Ls Hfuel) as (b & Eb & Hb'). exists b. split; auto. apply Hb'.
    - destruct (C101_sizes M s fuel minsz Ls Hfuel ltac:(lia)) as (b & Eb & Hb'). exists b. split; auto. apply Hb'. }
  destruct SZ as (b & -> & SZ). destruct b; [|exists db; auto].
  pose proof (canonical_iso M gt Hgt s Ls) as Ic. set (c := canonical_set M gt s) in *.
  destruct (existsb (bits_eqb c) db) eqn:X; [exists db; auto|].
  apply HL; auto. destruct I as (I1 & I2). split.
  - apply NoDup_Add with (a := c) (l := db); [|split; auto].
    + rewrite <- (app_nil_r db) at 1. apply Add_app.
    + intros H. assert (existsb (bits_eqb c) db = true); [|congruence]. apply existsb_exists. exists c. split; auto. apply bits_eqb_eq. auto.
  - intros c' H. apply in_app_or in H. destruct H as [H|[<-|[]]]; auto.
    assert (Lc : length c = size) by (rewrite (iso_length M s c Ic); auto).
    split; auto. split; [|split; [|split]].
    + fold c. apply (canonical_iff M gt Hgt c s Lc Ls). apply iso_sym. auto.
    + specialize (SZ eq_refl). unfold sizes_ok in *. destruct (minsz =? 0).
      * destruct SZ as (N & SZ). exists N. intros n H1 H2. apply (iso_satisfiable M s c n Ic). auto.
      * intros n H1. apply (iso_satisfiable M s c n Ic). auto.
    + intros a b d Ha Hb' Hd K. destruct Ic as (f & R & T). pose proof (renaming_onto M f R) as O.
      destruct (O a Ha) as (a' & A1 & <-). destruct (O b Hb') as (b' & B1 & <-). destruct (O d Hd) as (d' & D1 & <-).
      apply (iso_occurs M f s c); auto. apply T in K; auto. apply F in K; auto.
      destruct K as (n & x & i & K1 & K2 & K3). exists n, x, i. split; auto. apply (C101_same_states M set s n x L E). auto.
    + exists s. auto.
Qed.

Lemma without_below : forall s q, below s -> below (without M pair s q).
Proof.
  intros s q (L & H). unfold without.
  assert (X : forall j, ck (set_bit s q false) j = true -> ck s j = true).
  { apply (proj2 (fold_set_false (fun i => i) [q] s)). }
  destruct pair.
  - destruct (pc_config_of_enum_idx M q) as ((a & b) & d).
    destruct (fold_set_false (fun i => enum_idx_of_pc_config M (a, b, i)) (seq 0 M) (set_bit s q false)) as (L2 & H2).
    split; [rewrite L2, set_bit_length; auto|]. intros i K. apply H, X, H2, K.
  - split; [rewrite set_bit_length; auto|]. auto.
Qed.

Lemma recurse_loop_inv : forall q s db, below s -> Inv db ->
  exists db', recurse_loop M gt pair minsz fuel q s db = Some db' /\ Inv db'.
Proof.
  induction q as [|q IH]; intros s db B I; cbn [recurse_loop]; [exists db; auto|].
  destruct (ck s q); [|apply IH; auto].
  destruct (enter_inv (recurse_loop M gt pair minsz fuel q) (without M pair s q) db) as (db' & -> & I'); auto.
  apply without_below. auto.
Qed.
End Enum.
