(** Every set of views that is wanted is printed under some names of the values. *)
From Coq Require Import List Arith Bool Lia.
From Verif Require Import Radix BiringModel BiringSpec BiringProofs BiringProofs2 BiringProofs3 BiringProps
  BiringEnumModel BiringEnumSpec BiringEnumProofs.
Import ListNotations.

Definition count (s : bits) : nat := length (members s).
Lemma members_nodup : forall s, NoDup (members s).
Proof. intros. unfold members. apply NoDup_filter, seq_NoDup. Qed.

Lemma count_lt : forall (s t : bits) q, (forall i, ck s i = true -> ck t i = true) -> ck t q = true -> ck s q = false -> count s < count t.
Proof.
  intros s t q H1 H2 H3. unfold count. change (length (q :: members s) <= length (members t)). apply NoDup_incl_length.
  - constructor; [|apply members_nodup]. rewrite members_in. congruence.
  - intros i [<-|Hi]; apply members_in; auto. apply H1. apply members_in. auto.
Qed.

Lemma count_iso_le : forall M s t, length s = M * M * M -> isomorphic M s t -> count s <= count t.
Proof.
  intros M s t L (f & (R1 & R2) & T1 & T2). unfold count. rewrite <- (map_length (moved M f) (members s)).
  assert (V : forall i, In i (members s) -> exists a b d, a < M /\ b < M /\ d < M /\ i = place M (a, b, d)).
  { intros i Hi. apply members_in, ck_bound in Hi. rewrite L in Hi. destruct (place_config M i Hi) as (V1 & V2).
    destruct (pc_config_of_enum_idx M i) as ((a & b) & d). destruct V1 as (X & Y & Z). exists a, b, d. auto. }
  apply NoDup_incl_length.
  - assert (Inj : forall i j, In i (members s) -> In j (members s) -> moved M f i = moved M f j -> i = j).
    { intros i j Hi Hj E. destruct (V i Hi) as (a & b & d & Ha & Hb & Hd & ->). destruct (V j Hj) as (a' & b' & d' & Ha' & Hb' & Hd' & ->).
      rewrite !moved_place in E by auto. apply place_inj in E; [|cbn; auto|cbn; auto]. injection E as E1 E2 E3.
      apply R2 in E1; auto. apply R2 in E2; auto. apply R2 in E3; auto. subst. auto. }
    revert Inj. clear. generalize (members_nodup s). generalize (members s) as l.
    induction l as [|x l IH]; intros ND Inj; cbn; constructor; inversion ND; subst.
    + intros H. apply in_map_iff in H. destruct H as (y & E & Hy). apply Inj in E; [subst; auto|right; auto|left; auto].
    + apply IH; auto. intros i j Hi Hj. apply Inj; right; auto.
  - intros j Hj. apply in_map_iff in Hj. destruct Hj as (i & <- & Hi). pose proof Hi as Hi'. apply members_in in Hi.
    destruct (V i Hi') as (a & b & d & Ha & Hb & Hd & ->). apply members_in. rewrite moved_place by auto. apply T2; auto.
Qed.

Fixpoint val (s : bits) : nat := match s with [] => 0 | b :: r => (if b then 1 else 0) + 2 * val r end.
Lemma val_le : forall (s t : bits), length s = length t -> (forall i, ck s i = true -> ck t i = true) -> val s <= val t.
Proof.
  induction s as [|x s IH]; intros [|y t] L H; cbn in *; try lia.
  assert (val s <= val t) by (apply IH; [lia|]; intros i; apply (H (S i))).
  pose proof (H 0) as X. unfold ck in X. cbn in X. destruct x, y; try lia.
Qed.
Lemma val_lt : forall (s t : bits) p, length s = length t -> ck t p = true -> ck s p = false ->
  (forall i, p < i -> ck s i = true -> ck t i = true) -> val s < val t.
Proof.
  induction s as [|x s IH]; intros [|y t] p L K1 K2 H; cbn [val length] in *; try lia; [unfold ck in K1; destruct p; discriminate|].
  destruct p as [|p].
  - unfold ck in K1, K2. cbn in K1, K2. subst.
    assert (val s <= val t) by (apply val_le; [lia|]; intros i; apply (H (S i)); lia). lia.
  - assert (val s < val t) by (apply (IH t p); [lia|exact K1|exact K2|]; intros i Hi; apply (H (S i)); lia).
    destruct x, y; lia.
Qed.

Section Complete.
Variable M : nat.
Notation size := (M * M * M).
Variable gt : bits -> bits -> bool.
Hypothesis Hgt : strict_total gt.
Variables (minsz fuel : nat) (start : bits).
Hypothesis Hfuel : 2 ^ size < fuel.
Notation sizes_ok := (sizes_ok M minsz).
Notation below := (below M start).
Notation canonical := (canonical_set M gt).

Definition closed (D : bits) : Prop :=
  forall a b d, a < M -> b < M -> d < M -> in_table M D (a, b, d) -> occurs M (in_table M D) (a, b, d).
Definition sub (s t : bits) : Prop := forall i, ck s i = true -> ck t i = true.

Lemma sub_ring : forall s t n x, sub s t -> legit_ring M (in_table M s) n x -> legit_ring M (in_table M t) n x.
Proof. intros s t n x H (H1 & H2 & H3). split; auto. split; auto. intros i Hi. apply (H _ (H3 i Hi)). Qed.
Lemma sub_sizes : forall s t, sub s t -> sizes_ok s -> sizes_ok t.
Proof.
  intros s t H. unfold BiringEnumProofs.sizes_ok. destruct (minsz =? 0).
  - intros (N & X). exists N. intros n H1 H2. destruct (X n H1 H2) as (x & Y). exists x. eapply sub_ring; eauto.
  - intros X n H1. destruct (X n H1) as (x & Y). exists x. eapply sub_ring; eauto.
Qed.

Lemma closed_sub : forall D X s', length D = size -> length X = size -> closed D -> sub D X -> biring_fixpoint M X = Some s' -> sub D s'.
Proof.
  intros D X s' LD LX C H E i K. destruct (C101_fixpoint M X LX) as (s2 & E2 & _ & F). assert (s2 = s') by congruence. subst s2.
  pose proof (ck_bound _ _ K) as B. rewrite LD in B. destruct (place_config M i B) as (V1 & V2).
  destruct (pc_config_of_enum_idx M i) as ((a & b) & d). destruct V1 as (Va & Vb & Vd). subst i.
  apply F; auto. destruct (C a b d Va Vb Vd K) as (n & x & j & X1 & X2 & X3). exists n, x, j. split; auto. eapply sub_ring; eauto.
Qed.

(** what entering a set does *)
Lemma enter_cases : forall loop set db db', length set = size -> enter M gt minsz fuel loop set db = Some db' ->
  exists s, biring_fixpoint M set = Some s /\ length s = size /\ sub s set /\
    ((~ sizes_ok s /\ db' = db) \/ (sizes_ok s /\ In (canonical s) db /\ db' = db) \/
     (sizes_ok s /\ ~ In (canonical s) db /\ loop s (db ++ [canonical s]) = Some db')).
Proof.
  intros loop set db db' L H. unfold enter in H. destruct (C101_fixpoint M set L) as (s & E & Ls & F). rewrite E in H. rewrite L in Ls.
  exists s. split; auto. split; auto. split.
  { intros i K. destruct (biring_fixpoint_spec M set) as (s2 & E2 & _ & F2 & _). assert (s2 = s) by congruence. subst s2.
    apply F2 in K. destruct K as (k & W). eapply walk_ck. exact W. }
  assert (SZ : exists b, biring_sat_ck M fuel s minsz = Some b /\ (b = true <-> sizes_ok s)).
  { unfold BiringEnumProofs.sizes_ok. destruct (Nat.eqb_spec minsz 0) as [->|H0].
    - apply (C101_large M s fuel Ls Hfuel).
    - apply (C101_sizes M s fuel minsz Ls Hfuel). lia. }
  destruct SZ as (b & Eb & SZ). rewrite Eb in H. destruct b.
  - right. destruct (existsb (bits_eqb (canonical s)) db) eqn:X.
    + left. split; [tauto|]. split; [|congruence]. apply existsb_exists in X. destruct X as (c & X1 & X2). apply bits_eqb_eq in X2. subst. auto.
    + right. split; [tauto|]. split; auto. intros Y. assert (existsb (bits_eqb (canonical s)) db = true); [|congruence].
      apply existsb_exists. exists (canonical s). split; auto. apply bits_eqb_eq. auto.
  - left. split; [|congruence]. intros Y. apply SZ in Y. discriminate.
Qed.

(** what is newly printed is below the set that was entered *)
Definition new_below (X : bits) (db db' : list bits) : Prop :=
  incl db db' /\ forall c, In c db' -> In c db \/ exists s, length s = size /\ sub s X /\ isomorphic M s c.

Lemma without_sub : forall s q, length s = size -> length (without M false s q) = size /\ sub (without M false s q) s /\
  ck (without M false s q) q = false.
Proof.
  intros s q L. unfold without. split; [rewrite set_bit_length; auto|]. split; [|apply ck_clear].
  intros j. apply (proj2 (fold_set_false (fun i => i) [q] s)).
Qed.

Lemma loop_new : forall q X db db', length X = size -> recurse_loop M gt false minsz fuel q X db = Some db' -> new_below X db db'.
Proof.
  induction q as [|q IH]; intros X db db' L H; cbn [recurse_loop] in H.
  - injection H as <-. split; [apply incl_refl|auto].
  - destruct (ck X q); [|eauto].
    destruct (enter M gt minsz fuel (recurse_loop M gt false minsz fuel q) (without M false X q) db) as [db1|] eqn:E; [|discriminate].
    destruct (without_sub X q L) as (L1 & S1 & _).
    assert (N1 : new_below X db db1).
    { apply enter_cases in E; auto. destruct E as (s & _ & Ls & Ss & [(_ & ->)|[(_ & _ & ->)|(_ & _ & E)]]);
        [split; [apply incl_refl|auto]|split; [apply incl_refl|auto]|].
      apply IH in E; auto. destruct E as (I1 & I2). split; [intros c Hc; apply I1; apply in_or_app; auto|].
      intros c Hc. apply I2 in Hc. destruct Hc as [Hc|(s' & A1 & A2 & A3)].
      - apply in_app_or in Hc. destruct Hc as [Hc|[<-|[]]]; auto. right. exists s. split; auto. split; [intros i K; auto|].
        apply canonical_iso; auto.
      - right. exists s'. split; auto. split; auto. intros i K. auto. }
    apply IH in H; auto. destruct N1 as (A1 & A2), H as (B1 & B2). split; [eapply incl_tran; eauto|].
    intros c Hc. apply B2 in Hc. destruct Hc as [Hc|Hc]; auto.
Qed.

Lemma enter_new : forall q X db db', length X = size -> enter M gt minsz fuel (recurse_loop M gt false minsz fuel q) X db = Some db' ->
  new_below X db db'.
Proof.
  intros q X db db' L E. apply enter_cases in E; auto. destruct E as (s & _ & Ls & Ss & [(_ & ->)|[(_ & _ & ->)|(_ & _ & E)]]);
    [split; [apply incl_refl|auto]|split; [apply incl_refl|auto]|].
  apply loop_new in E; auto. destruct E as (I1 & I2). split; [intros c Hc; apply I1; apply in_or_app; auto|].
  intros c Hc. apply I2 in Hc. destruct Hc as [Hc|(s' & A1 & A2 & A3)].
  - apply in_app_or in Hc. destruct Hc as [Hc|[<-|[]]]; auto. right. exists s. split; auto. split; auto. apply canonical_iso; auto.
  - right. exists s'. split; auto. split; auto. intros i K. auto.
Qed.

(** one wanted set *)
Variable D : bits.
Hypothesis LD : length D = size.
Hypothesis HC : closed D.
Hypothesis HS : sizes_ok D.

Definition earlier (q : nat) (c : bits) : Prop :=
  exists S' p, below S' /\ isomorphic M S' c /\ q <= p /\ ck D p = true /\ ck S' p = false /\ forall i, p < i -> ck S' i = true -> ck D i = true.
Definition smaller : Prop :=
  exists D' p, below D' /\ isomorphic M D D' /\ ck D p = true /\ ck D' p = false /\ forall i, p < i -> ck D' i = true -> ck D i = true.

Lemma loop_complete : forall q X db db', below X -> sub D X -> (forall i, q <= i -> ck X i = true -> ck D i = true) ->
  In (canonical X) db -> (forall c, In c db -> count X <= count c \/ earlier q c) ->
  recurse_loop M gt false minsz fuel q X db = Some db' ->
  (exists c, In c db' /\ isomorphic M D c) \/ smaller.
Proof.
  induction q as [|q IH]; intros X db db' (LX & BX) HD HX Hc HI H; cbn [recurse_loop] in H.
  - injection H as <-. left. exists (canonical X). split; auto.
    assert (E : D = X).
    { apply bits_ext; [congruence|]. intros i. apply eq_true_iff_eq. split; auto. apply HX. lia. }
    rewrite E. apply canonical_iso; auto.
  - assert (W : forall c, earlier (S q) c -> earlier q c).
    { intros c (S' & p & A1 & A2 & A3 & A4). exists S', p. split; auto. split; auto. split; [lia|auto]. }
    destruct (ck X q) eqn:Kq.
    2:{ refine (IH X db db' (conj LX BX) HD _ Hc _ H).
        - intros i Hi K. destruct (Nat.eq_dec i q) as [->|]; [congruence|]. apply HX; auto. lia.
        - intros c Hcc. destruct (HI c Hcc); auto. }
    destruct (enter M gt minsz fuel (recurse_loop M gt false minsz fuel q) (without M false X q) db) as [db1|] eqn:E; [|discriminate].
    destruct (without_sub X q LX) as (L1 & S1 & K1).
    destruct (ck D q) eqn:Dq.
    + apply enter_new in E; auto. destruct E as (E1 & E2). refine (IH X db1 db' (conj LX BX) HD _ (E1 _ Hc) _ H).
      * intros i Hi K. destruct (Nat.eq_dec i q) as [->|]; auto. apply HX; auto. lia.
      * intros c Hcc. apply E2 in Hcc. destruct Hcc as [Hcc|(s & A1 & A2 & A3)]; [destruct (HI c Hcc); auto|].
        right. exists s, q. split; [split; [auto|intros i K; apply BX, S1, A2, K]|]. split; auto. split; auto. split; auto. split.
        -- destruct (ck s q) eqn:Z; auto. apply A2 in Z. congruence.
        -- intros i Hi K. apply HX; [lia|]. apply S1, A2, K.
    + pose proof (loop_new q X db1 db' LX H) as (Inc & _).
      pose proof E as E'. apply enter_cases in E'; auto. destruct E' as (s & F & Ls & Ss & Cases).
      assert (Dw : sub D (without M false X q)).
      { intros i K. assert (N : i <> q) by congruence. unfold without. rewrite ck_set_bit by (apply ck_bound; auto).
        destruct (Nat.eqb_spec q i); [congruence|]. apply HD. auto. }
      assert (Ds : sub D s) by (apply (closed_sub D (without M false X q) s); auto).
      assert (Cn : count s < count X).
      { apply (count_lt s X q); [intros i K; apply S1, Ss, K|exact Kq|]. destruct (ck s q) eqn:Z; auto. apply Ss in Z. congruence. }
      pose proof (canonical_iso M gt Hgt s Ls) as Is.
      assert (Bs : below s) by (split; [auto|intros i K; apply BX, S1, Ss, K]).
      destruct Cases as [(Ns & _)|[(_ & Ic & _)|(_ & Nc & Lp)]].
      * exfalso. apply Ns. apply (sub_sizes D s); auto.
      * right. destruct (HI _ Ic) as [Z|(S' & p & (A0 & A1) & A2 & A3 & A4 & A5 & A6)].
        -- exfalso. assert (count (canonical s) <= count s); [|lia].
           apply (count_iso_le M); [rewrite (iso_length M s _ Is); auto|apply iso_sym; auto].
        -- destruct (iso_trans M s (canonical s) S' Is (iso_sym M _ _ A2)) as (f & R & T).
           destruct (permute_renamed M D f LD R) as (P1 & P2).
           assert (Sb : sub (permute_pc_config M D f) S').
           { intros i K. pose proof (ck_bound _ _ K) as B. rewrite P1, LD in B. destruct (place_config M i B) as (V1 & V2).
             destruct (pc_config_of_enum_idx M i) as ((a & b) & d). destruct V1 as (Va & Vb & Vd).
             pose proof (renaming_onto M f R) as O.
             destruct (O a Va) as (a' & Aa & <-). destruct (O b Vb) as (b' & Bb & <-). destruct (O d Vd) as (d' & Dd & <-).
             rewrite <- V2 in K |- *. apply P2 in K; auto. apply T; auto. apply Ds. exact K. }
           exists (permute_pc_config M D f), p. split; [split; [rewrite P1; auto|intros i K; apply A1, Sb, K]|].
           split; [exists f; split; [auto|split; auto]|]. split; auto. split.
           ++ destruct (ck (permute_pc_config M D f) p) eqn:Z; auto. apply Sb in Z. congruence.
           ++ intros i Hi K. apply A6; auto.
      * destruct (IH s (db ++ [canonical s]) db1) as [(c & C1 & C2)|C]; auto.
        -- intros i Hi K. assert (i <> q). { intros ->. apply Ss in K. congruence. } apply HX; [lia|]. apply S1, Ss, K.
        -- apply in_or_app. right. left. auto.
        -- intros c Hcc. apply in_app_or in Hcc. destruct Hcc as [Hcc|[<-|[]]].
           ++ destruct (HI c Hcc); [left; lia|auto].
           ++ left. apply (count_iso_le M); auto.
        -- left. exists c. auto.
Qed.
End Complete.
