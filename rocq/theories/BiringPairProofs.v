(** The enumeration with the option of pairs misses nothing. *)
From Coq Require Import List Arith Bool Lia.
From Verif Require Import Radix BiringModel BiringSpec BiringProofs BiringProofs2 BiringProps
  BiringEnumModel BiringEnumSpec BiringEnumProofs BiringEnumProofs2 BiringEnumProps.
Import ListNotations.

Lemma fixpoint_closed : forall M X s, length X = M * M * M -> biring_fixpoint M X = Some s -> closed M s.
Proof.
  intros M X s L E a b d Ha Hb Hd K. destruct (C101_fixpoint M X L) as (s2 & E2 & _ & F). assert (s2 = s) by congruence. subst s2.
  apply F in K; auto. destruct K as (n & x & j & X1 & X2). exists n, x, j. split; [|exact X2].
  apply (C101_same_states M X s n x); auto.
Qed.

Lemma occurs_next : forall M V a b d, occurs M V (a, b, d) -> exists y, y < M /\ V (b, d, y).
Proof.
  intros M V a b d (n & x & i & (H1 & H2 & H3) & Hi & E). unfold view in E. injection E as E1 E2 E3.
  assert (B : (i + 1) mod n < n) by (apply Nat.mod_upper_bound; lia).
  pose proof (H3 _ B) as K. unfold view in K. rewrite E3 in K.
  assert (P : ((i + 1) mod n + n - 1) mod n = i).
  { destruct (Nat.eq_dec (i + 1) n) as [Q|Q].
    - rewrite Q, Nat.mod_same by lia. replace (0 + n - 1) with i by lia. apply Nat.mod_small. auto.
    - rewrite (Nat.mod_small (i + 1)) by lia. replace (i + 1 + n - 1) with (i + 1 * n) by lia. rewrite Nat.mod_add by lia.
      apply Nat.mod_small. auto. }
  rewrite P, E2 in K. eexists. split; [|exact K]. apply H2. apply Nat.mod_upper_bound. lia.
Qed.

Section Pair.
Variable M : nat.
Notation size := (M * M * M).

(** The position of the pair of a view, and the pairs of a set. *)
Definition hasp (s : bits) (j : nat) : Prop := exists i, i / M = j /\ ck s i = true.

Lemma place_div : forall a b d, d < M -> place M (a, b, d) / M = b * M + a.
Proof. intros a b d H. unfold place. rewrite Nat.div_add_l by lia. rewrite Nat.div_small by auto. lia. Qed.

Lemma hasp_view : forall s a b, length s = size -> a < M -> b < M ->
  (hasp s (b * M + a) <-> exists d, d < M /\ in_table M s (a, b, d)).
Proof.
  intros s a b L Ha Hb. split.
  - intros (i & E & K). pose proof (ck_bound _ _ K) as B. rewrite L in B. destruct (place_config M i B) as (V1 & V2).
    destruct (pc_config_of_enum_idx M i) as ((a' & b') & d). destruct V1 as (Va & Vb & Vd). exists d. split; auto.
    rewrite <- V2 in E, K. rewrite place_div in E by auto. assert (b' = b) by nia. subst b'. assert (a' = a) by nia. subst. exact K.
  - intros (d & Hd & K). exists (place M (a, b, d)). split; [apply place_div; auto|exact K].
Qed.

(** A set given by its pairs. *)
Definition shaped (D : bits) : Prop := forall a b d x y, a < M -> b < M -> d < M -> x < M -> y < M ->
  in_table M D (a, b, x) -> in_table M D (b, d, y) -> in_table M D (a, b, d).

Lemma without_pair : forall s q, length s = size -> q < size -> length (without M true s q) = size /\ sub (without M true s q) s /\
  ~ hasp (without M true s q) (q / M) /\ forall i, ck s i = true -> i / M <> q / M -> ck (without M true s q) i = true.
Proof.
  intros s q L Hq. unfold without. destruct (place_config M q Hq) as (V1 & V2).
  destruct (pc_config_of_enum_idx M q) as ((a & b) & d). destruct V1 as (Va & Vb & Vd).
  set (g := fun i => enum_idx_of_pc_config M (a, b, i)).
  change (fun (bt : bits) (i : nat) => set_bit bt (enum_idx_of_pc_config M (a, b, i)) false) with (fun bt i => set_bit bt (g i) false).
  destruct (fold_set_false g (seq 0 M) (set_bit s q false)) as (L2 & H2).
  assert (Lw : length (fold_left (fun bt i => set_bit bt (g i) false) (seq 0 M) (set_bit s q false)) = size)
    by (rewrite L2, set_bit_length; auto).
  split; [exact Lw|]. split; [|split].
  - intros i K. apply H2 in K. revert K. apply (proj2 (fold_set_false (fun i => i) [q] s)).
  - intros K. replace (q / M) with (b * M + a) in K by (rewrite <- V2, place_div; auto). apply hasp_view in K; auto. destruct K as (x & Hx & K).
    destruct (fold_clear (fun bt i => set_bit bt (g i) false) g (seq 0 M) (set_bit s q false)) as (_ & _ & C).
    + intros s0 v j. apply (proj2 (fold_set_false (fun i => i) [g v] s0)).
    + intros s0 v _. apply ck_clear.
    + intros s0 v. apply set_bit_length.
    + assert (Hin : In x (seq 0 M)) by (apply in_seq; lia). pose proof (C x Hin) as Z. unfold g at 2 in Z. rewrite enum_place in Z.
      unfold in_table in K. unfold ck in Z. congruence.
  - intros i K N. rewrite (fold_keep g).
    + rewrite ck_set_bit by (unfold bits in *; lia). destruct (Nat.eqb_spec q i); [congruence|auto].
    + intros v Hv E. apply N. apply in_seq in Hv. unfold g in E. rewrite enum_place in E. rewrite <- E. rewrite place_div by lia.
      rewrite <- V2, place_div; auto.
Qed.

Lemma hasp_sub : forall s t j, sub s t -> hasp s j -> hasp t j.
Proof. intros s t j H (i & E & K). exists i. auto. Qed.

Lemma hasp_dec : forall s j, length s = size -> hasp s j \/ ~ hasp s j.
Proof.
  intros s j L. destruct (existsb (fun i => (i / M =? j) && ck s i) (seq 0 size)) eqn:E.
  - left. apply existsb_exists in E. destruct E as (i & _ & E). apply andb_true_iff in E. rewrite Nat.eqb_eq in E. exists i. auto.
  - right. intros (i & E1 & K). pose proof (ck_bound _ _ K) as B.
    assert (X : existsb (fun i => (i / M =? j) && ck s i) (seq 0 size) = true); [|congruence].
    apply existsb_exists. exists i. split; [apply in_seq; unfold bits in *; lia|]. rewrite K, (proj2 (Nat.eqb_eq _ _) E1). auto.
Qed.

Definition pairs (s : bits) : bits := map (fun j => existsb (fun i => (i / M =? j) && ck s i) (seq 0 size)) (seq 0 size).
Lemma pairs_iff : forall s j, length s = size -> (ck (pairs s) j = true <-> hasp s j).
Proof.
  intros s j L. unfold ck, pairs. split.
  - intros K. assert (B : j < size).
    { destruct (Nat.lt_ge_cases j size) as [|B]; auto. rewrite nth_overflow in K; [discriminate|]. rewrite map_length, seq_length. auto. }
    rewrite (nth_indep _ false (existsb (fun i => (i / M =? 0) && ck s i) (seq 0 size))) in K by (rewrite map_length, seq_length; auto).
    rewrite (map_nth (fun j => existsb (fun i => (i / M =? j) && ck s i) (seq 0 size)) (seq 0 size) 0 j), seq_nth in K by auto.
    apply existsb_exists in K. destruct K as (i & _ & K). apply andb_true_iff in K. rewrite Nat.eqb_eq in K. exists i. auto.
  - intros (i & E & K). pose proof (ck_bound _ _ K) as B.
    assert (Bj : j < size).
    { subst j. assert (i / M <= i); [|unfold bits in *; lia]. destruct (Nat.eq_dec M 0) as [->|]; [cbn; lia|]. apply Nat.div_le_upper_bound; nia. }
    rewrite (nth_indep _ false (existsb (fun i => (i / M =? 0) && ck s i) (seq 0 size))) by (rewrite map_length, seq_length; auto).
    rewrite (map_nth (fun j => existsb (fun i => (i / M =? j) && ck s i) (seq 0 size)) (seq 0 size) 0 j), seq_nth by auto.
    apply existsb_exists. exists i. split; [apply in_seq; unfold bits in *; lia|]. cbn. rewrite K, (proj2 (Nat.eqb_eq _ _) E). auto.
Qed.

Variable gt : bits -> bits -> bool.
Hypothesis Hgt : strict_total gt.
Variables (minsz fuel : nat) (start : bits).
Hypothesis Hfuel : 2 ^ size < fuel.
Notation sizes_ok := (sizes_ok M minsz).
Notation below := (below M start).
Notation canonical := (canonical_set M gt).
Notation new_below := (new_below M).

Lemma pair_new : forall q X db db', q <= size -> length X = size -> recurse_loop M gt true minsz fuel q X db = Some db' -> new_below X db db'.
Proof.
  induction q as [|q IH]; intros X db db' Hq L H; cbn [recurse_loop] in H.
  - injection H as <-. split; [apply incl_refl|auto].
  - destruct (ck X q); [|apply (IH X); auto; lia].
    destruct (enter M gt minsz fuel (recurse_loop M gt true minsz fuel q) (without M true X q) db) as [db1|] eqn:E; [|discriminate].
    destruct (without_pair X q L) as (L1 & S1 & _); [lia|].
    assert (N1 : new_below X db db1).
    { apply enter_cases in E; auto. destruct E as (s & _ & Ls & Ss & [(_ & ->)|[(_ & _ & ->)|(_ & _ & E)]]);
        [split; [apply incl_refl|auto]|split; [apply incl_refl|auto]|].
      apply IH in E; auto; [|lia]. destruct E as (I1 & I2). split; [intros c Hc; apply I1; apply in_or_app; auto|].
      intros c Hc. apply I2 in Hc. destruct Hc as [Hc|(s' & A1 & A2 & A3)].
      - apply in_app_or in Hc. destruct Hc as [Hc|[<-|[]]]; auto. right. exists s. split; auto. split; [intros i K; auto|].
        apply canonical_iso; auto.
      - right. exists s'. split; auto. split; auto. intros i K. auto. }
    apply IH in H; auto; [|lia]. destruct N1 as (A1 & A2), H as (B1 & B2). split; [eapply incl_tran; eauto|].
    intros c Hc. apply B2 in Hc. destruct Hc as [Hc|Hc]; auto.
Qed.

Lemma pair_enter_new : forall q X db db', q <= size -> length X = size ->
  enter M gt minsz fuel (recurse_loop M gt true minsz fuel q) X db = Some db' -> new_below X db db'.
Proof.
  intros q X db db' Hq L E. apply enter_cases in E; auto.
  destruct E as (s & _ & Ls & Ss & [(_ & ->)|[(_ & _ & ->)|(_ & _ & E)]]);
    [split; [apply incl_refl|auto]|split; [apply incl_refl|auto]|].
  apply pair_new in E; auto. destruct E as (I1 & I2). split; [intros c Hc; apply I1; apply in_or_app; auto|].
  intros c Hc. apply I2 in Hc. destruct Hc as [Hc|(s' & A1 & A2 & A3)].
  - apply in_app_or in Hc. destruct Hc as [Hc|[<-|[]]]; auto. right. exists s. split; auto. split; auto. apply canonical_iso; auto.
  - right. exists s'. split; auto. split; auto. intros i K. auto.
Qed.

Variable D : bits.
Hypothesis LD : length D = size.
Hypothesis HC : closed M D.
Hypothesis HS : sizes_ok D.
Hypothesis HP : shaped D.

Definition pearlier (c : bits) : Prop :=
  exists S' p, below S' /\ isomorphic M S' c /\ hasp D p /\ ~ hasp S' p /\ forall j, p < j -> hasp S' j -> hasp D j.
Definition psmaller : Prop :=
  exists D' p, below D' /\ isomorphic M D D' /\ hasp D p /\ ~ hasp D' p /\ forall j, p < j -> hasp D' j -> hasp D j.

Lemma pair_complete : forall q X db db', q <= size -> below X -> closed M X -> sub D X -> (forall i, q <= i -> ck X i = true -> hasp D (i / M)) ->
  In (canonical X) db -> (forall c, In c db -> count X <= count c \/ pearlier c) ->
  recurse_loop M gt true minsz fuel q X db = Some db' ->
  (exists c, In c db' /\ isomorphic M D c) \/ psmaller.
Proof.
  induction q as [|q IH]; intros X db db' Hq (LX & BX) CX HD HX Hc HI H; cbn [recurse_loop] in H.
  - injection H as <-. left. exists (canonical X). split; auto.
    assert (E : D = X).
    { apply bits_ext; [congruence|]. intros i. apply eq_true_iff_eq. split; [apply HD|]. intros K.
      pose proof (ck_bound _ _ K) as B. rewrite LX in B. destruct (place_config M i B) as (V1 & V2).
      destruct (pc_config_of_enum_idx M i) as ((a & b) & d). destruct V1 as (Va & Vb & Vd). rewrite <- V2 in K |- *.
      assert (P1 : hasp D (b * M + a)) by (rewrite <- (place_div a b d Vd); apply HX; [lia|exact K]).
      destruct (occurs_next M _ a b d (CX a b d Va Vb Vd K)) as (y & Hy & K2).
      assert (P2 : hasp D (d * M + b)) by (rewrite <- (place_div b d y Hy); apply HX; [lia|exact K2]).
      apply hasp_view in P1, P2; auto. destruct P1 as (x1 & X1 & X2), P2 as (y1 & Y1 & Y2).
      apply (HP a b d x1 y1); auto. }
    rewrite E. apply canonical_iso; auto.
  - destruct (ck X q) eqn:Kq.
    2:{ refine (IH X db db' _ (conj LX BX) CX HD _ Hc HI H); [lia|].
        intros i Hi K. destruct (Nat.eq_dec i q) as [->|]; [congruence|]. apply HX; auto. lia. }
    destruct (enter M gt minsz fuel (recurse_loop M gt true minsz fuel q) (without M true X q) db) as [db1|] eqn:E; [|discriminate].
    destruct (without_pair X q LX) as (L1 & S1 & K1 & W1); [lia|].
    destruct (hasp_dec D (q / M) LD) as [Dq|Dq].
    + apply pair_enter_new in E; auto; [|lia]. destruct E as (E1 & E2). refine (IH X db1 db' _ (conj LX BX) CX HD _ (E1 _ Hc) _ H); [lia| |].
      * intros i Hi K. destruct (Nat.eq_dec i q) as [->|]; auto. apply HX; auto. lia.
      * intros c Hcc. apply E2 in Hcc. destruct Hcc as [Hcc|(s & A1 & A2 & A3)]; [destruct (HI c Hcc); auto|].
        right. exists s, (q / M). split; [split; [auto|intros i K; apply BX, S1, A2, K]|]. split; auto. split; auto. split.
        -- intros Z. apply K1. apply (hasp_sub s); auto.
        -- intros j Hj (i & <- & K). apply HX; [|apply S1, A2, K].
           destruct (Nat.le_gt_cases (S q) i) as [|Z]; auto. exfalso.
           assert (i / M <= q / M); [|lia]. destruct (Nat.eq_dec M 0) as [->|]; [cbn; lia|]. apply Nat.div_le_mono; lia.
    + assert (Hq' : q <= size) by lia. pose proof (pair_new q X db1 db' Hq' LX H) as (Inc & _).
      pose proof E as E'. apply enter_cases in E'; auto. destruct E' as (s & F & Ls & Ss & Cases).
      assert (Dw : sub D (without M true X q)).
      { intros i K. apply W1; [apply HD; auto|]. intros Z. apply Dq. exists i. auto. }
      assert (Ds : sub D s) by (apply (closed_sub M D (without M true X q) s); auto).
      assert (Cn : count s < count X).
      { apply (count_lt s X q); [intros i K; apply S1, Ss, K|exact Kq|]. destruct (ck s q) eqn:Z; auto.
        exfalso. apply K1. exists q. split; auto. }
      pose proof (canonical_iso M gt Hgt s Ls) as Is.
      assert (Bs : below s) by (split; [auto|intros i K; apply BX, S1, Ss, K]).
      destruct Cases as [(Ns & _)|[(_ & Ic & _)|(_ & Nc & Lp)]].
      * exfalso. apply Ns. apply (sub_sizes M minsz D s); auto.
      * right. destruct (HI _ Ic) as [Z|(S' & p & (A0 & A1) & A2 & A4 & A5 & A6)].
        -- exfalso. assert (count (canonical s) <= count s); [|lia].
           apply (count_iso_le M); [rewrite (iso_length M s _ Is); auto|apply iso_sym; auto].
        -- destruct (iso_trans M s (canonical s) S' Is (iso_sym M _ _ A2)) as (f & R & T).
           destruct (permute_renamed M D f LD R) as (P1 & P2).
           assert (Sb : sub (permute_pc_config M D f) S').
           { intros i K. pose proof (ck_bound _ _ K) as B. rewrite P1, LD in B. destruct (place_config M i B) as (V1 & V2).
             destruct (pc_config_of_enum_idx M i) as ((a & b) & d). destruct V1 as (Va & Vb & Vd).
             pose proof (renaming_onto M f R) as O.
             destruct (O a Va) as (a' & Aa & <-). destruct (O b Vb) as (b' & Bb & <-). destruct (O d Vd) as (d' & Dd & <-).
             rewrite <- V2 in K |- *. apply P2 in K; auto. apply T; auto. apply Ds. exact K. }
           exists (permute_pc_config M D f), p. split; [split; [rewrite P1; auto|intros i K; apply A1, Sb, K]|].
           split; [exists f; split; [auto|split; auto]|]. split; auto. split.
           ++ intros Z. apply A5. apply (hasp_sub _ _ _ Sb Z).
           ++ intros j Hj K. apply A6; auto. apply (hasp_sub _ _ _ Sb K).
      * assert (Cs : closed M s) by (apply (fixpoint_closed M (without M true X q)); auto).
        destruct (IH s (db ++ [canonical s]) db1) as [(c & C1 & C2)|C]; auto.
        -- intros i Hi K. assert (i <> q). { intros ->. apply K1. exists q. split; auto. } apply HX; [lia|]. apply S1, Ss, K.
        -- apply in_or_app. right. left. auto.
        -- intros c Hcc. apply in_app_or in Hcc. destruct Hcc as [Hcc|[<-|[]]].
           ++ destruct (HI c Hcc); [left; lia|auto].
           ++ left. apply (count_iso_le M); auto.
        -- left. exists c. auto.
Qed.

End Pair.
