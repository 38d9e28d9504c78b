(** C103: the filter of local invariants of bidirectional rings. *)
From Coq Require Import List Arith Bool Lia.
From Verif Require Import Radix BiringModel BiringSpec BiringProofs BiringProofs2 BiringProps
  BiringEnumModel BiringEnumSpec BiringEnumProofs BiringEnumProofs2 BiringEnumProps BiringFilterModel.
Import ListNotations.

Lemma ck_pc_config_iff : forall M s a b d, ck_pc_config M s a b d = true <-> in_table M s (a, b, d).
Proof. intros. unfold ck_pc_config. rewrite enum_place. tauto. Qed.

(** The pattern that the comment of the program describes (biring.cc:843-853). *)
Definition pattern (M : nat) (V : nat * nat * nat -> Prop) : Prop :=
  exists a b c d, a < M /\ b < M /\ c < M /\ d < M /\
    ((a <> b /\ a <> c /\ a <> d) \/ (a = b /\ a = c /\ a = d)) /\
    V (a, b, a) /\ V (a, c, d) /\ V (b, a, b) /\ V (b, a, c) /\ V (c, d, a) /\ V (d, a, b) /\ V (d, a, c).

Theorem C103_match : forall M s, subck_match M s = true <-> pattern M (in_table M s).
Proof.
  intros M s. unfold subck_match, pattern. rewrite existsb_exists. split.
  - intros (a & Ha & H). apply in_seq in Ha. apply existsb_exists in H. destruct H as (b & Hb & H). apply in_seq in Hb.
    rewrite !andb_true_iff, orb_true_iff, !ck_pc_config_iff in H. destruct H as ((H1 & H2) & H).
    destruct (Nat.eqb_spec a b) as [<-|Nab].
    + exists a, a, a, a. split; [lia|]. split; [lia|]. split; [lia|]. split; [lia|]. split; [right; auto|]. repeat split; auto.
    + destruct H as [H|H]; [discriminate|]. apply existsb_exists in H. destruct H as (c & Hc & H). apply in_seq in Hc.
      rewrite !andb_true_iff, ck_pc_config_iff, negb_true_iff, Nat.eqb_neq in H. destruct H as ((H3 & H4) & H).
      apply existsb_exists in H. destruct H as (d & Hd & H). apply in_seq in Hd.
      rewrite !andb_true_iff, !ck_pc_config_iff, negb_true_iff, Nat.eqb_neq in H. destruct H as ((((H5 & H6) & H7) & H8) & H9).
      exists a, b, c, d. split; [lia|]. split; [lia|]. split; [lia|]. split; [lia|]. split; [left; auto|]. repeat split; auto.
  - intros (a & b & c & d & Ha & Hb & Hc & Hd & E & V1 & V2 & V3 & V4 & V5 & V6 & V7).
    exists a. split; [apply in_seq; lia|]. apply existsb_exists. exists b. split; [apply in_seq; lia|].
    rewrite !andb_true_iff, orb_true_iff, !ck_pc_config_iff. split; auto.
    destruct (Nat.eqb_spec a b) as [|Nab]; [left; auto|right]. destruct E as [(E1 & E2 & E3)|(E1 & _)]; [|congruence].
    apply existsb_exists. exists c. split; [apply in_seq; lia|]. rewrite !andb_true_iff, ck_pc_config_iff, negb_true_iff, Nat.eqb_neq.
    split; [auto|]. apply existsb_exists. exists d. split; [apply in_seq; lia|].
    rewrite !andb_true_iff, !ck_pc_config_iff, negb_true_iff, Nat.eqb_neq. auto 10.
Qed.
Print Assumptions C103_match.

(** A set with the pattern has legitimate states for all rings of two or more. *)
Theorem C103_match_sizes : forall M s n, length s = M * M * M -> subck_match M s = true -> 2 <= n ->
  satisfiable M (in_table M s) n.
Proof.
  intros M s n L H Hn. apply C103_match in H.
  destruct H as (a & b & c & d & Ha & Hb & Hc & Hd & _ & V1 & V2 & V3 & V4 & V5 & V6 & V7).
  apply satisfiable_walk; [auto|lia|].
  assert (St : forall x y z t, x < M -> y < M -> z < M -> t < M -> in_table M s (y, z, t) ->
    step M s (place M (x, y, z)) (place M (y, z, t))).
  { intros x y z t Hx Hy Hz Ht K. apply step_iff; [cbn; auto|]. exists t. auto. }
  assert (W2 : walk M s 2 (place M (a, b, a)) (place M (a, b, a))).
  { exists (place M (b, a, b)). split; [apply St; auto|]. exists (place M (a, b, a)). split; [apply St; auto|reflexivity]. }
  assert (W3 : walk M s 3 (place M (d, a, c)) (place M (d, a, c))).
  { exists (place M (a, c, d)). split; [apply St; auto|]. exists (place M (c, d, a)). split; [apply St; auto|].
    exists (place M (d, a, c)). split; [apply St; auto|reflexivity]. }
  assert (W5 : walk M s 5 (place M (a, b, a)) (place M (a, b, a))).
  { exists (place M (b, a, c)). split; [apply St; auto|]. exists (place M (a, c, d)). split; [apply St; auto|].
    exists (place M (c, d, a)). split; [apply St; auto|]. exists (place M (d, a, b)). split; [apply St; auto|].
    exists (place M (a, b, a)). split; [apply St; auto|reflexivity]. }
  destruct (Nat.Even_or_Odd n) as [(k & ->)|(k & ->)].
  - exists (place M (a, b, a)). rewrite Nat.mul_comm. apply BiringProofs3.walk_pow. auto.
  - destruct (Nat.eq_dec k 1) as [->|Hk]; [exists (place M (d, a, c)); exact W3|].
    exists (place M (a, b, a)). replace (2 * k + 1) with (5 + (k - 2) * 2) by lia.
    apply (walk_app M s 5 _ _ (place M (a, b, a)) _ W5). apply BiringProofs3.walk_pow. auto.
Qed.
Print Assumptions C103_match_sizes.

(** The known sets need three values: with two a bit outside of the table is set. *)
Theorem C103_known_refuted : forall s, subck_configs 2 configs_3match s = None /\ subck_configs 2 configs_next7 s = None.
Proof. intros s. split; reflexivity. Qed.
Print Assumptions C103_known_refuted.

(** With enough values the answer is exact. *)
Theorem C103_known : forall M cs s, length s = M * M * M ->
  (forall a b d, In (a, b, d) cs -> a < M /\ b < M /\ d < M) ->
  exists r, subck_configs M cs s = Some r /\
    (r = true <-> exists f, renaming M f /\ forall a b d, In (a, b, d) cs -> in_table M s (f a, f b, f d)).
Proof.
  intros M cs s L Hcs. unfold subck_configs.
  assert (X : forall cs bt, (forall a b d, In (a, b, d) cs -> a < M /\ b < M /\ d < M) -> length bt = M * M * M ->
    exists t, set_all M cs bt = Some t /\ length t = M * M * M /\
      forall a b d, a < M -> b < M -> d < M -> (in_table M t (a, b, d) <-> in_table M bt (a, b, d) \/ In (a, b, d) cs)).
  { clear. induction cs as [|((x & y) & z) cs IH]; intros bt H L; cbn [set_all].
    - exists bt. split; auto. split; auto. cbn. tauto.
    - destruct (H x y z) as (Hx & Hy & Hz); [left; auto|].
      assert (P : place M (x, y, z) < M * M * M) by (apply place_bound; cbn; auto).
      rewrite enum_place, L. rewrite (proj2 (Nat.ltb_lt _ _) P).
      destruct (IH (set_bit bt (place M (x, y, z)) true)) as (t & E & Lt & T).
      + intros a b d K. apply H. right. auto.
      + rewrite set_bit_length. auto.
      + exists t. split; auto. split; auto. intros a b d Ha Hb Hd. rewrite T by auto.
        change (in_table M (set_bit bt (place M (x, y, z)) true) (a, b, d)) with (ck (set_bit bt (place M (x, y, z)) true) (place M (a, b, d)) = true).
        change (in_table M bt (a, b, d)) with (ck bt (place M (a, b, d)) = true).
        rewrite ck_set_bit by (unfold bits in *; lia).
        destruct (Nat.eqb_spec (place M (x, y, z)) (place M (a, b, d))) as [Q|Q].
        * apply place_inj in Q; [|cbn; auto|cbn; auto]. rewrite Q. cbn. tauto.
        * cbn. split; [tauto|]. intros [K|[K|K]]; auto. rewrite K in Q. congruence. }
  destruct (X cs (repeat false (M * M * M)) Hcs (repeat_length _ _)) as (t & E & Lt & T). rewrite E. eexists. split; [reflexivity|].
  rewrite (C102_subgraph M t s Lt L).
  assert (Z : forall a b d, ~ in_table M (repeat false (M * M * M)) (a, b, d)).
  { intros a b d K. unfold in_table in K. pose proof (ck_zero (M * M * M) (place M (a, b, d))) as Y. unfold ck in Y. congruence. }
  split; intros (f & R & F); exists f; (split; [auto|]).
  - intros a b d K. destruct (Hcs a b d K) as (Ha & Hb & Hd). apply F; auto. apply T; auto.
  - intros a b d Ha Hb Hd K. apply T in K; auto. destruct K as [K|K]; [exfalso; exact (Z _ _ _ K)|]. auto.
Qed.
Print Assumptions C103_known.

(** The invariant of the printed specification holds for a view exactly if the view
    is in the set; with the option of pairs, if some view with these values of the
    predecessor and the process is. *)
Lemma terms_iff : forall M pair own idxs cache a b d, (forall e, In e idxs -> e < M * M * M) ->
  (existsb (fun t => term_holds t (a, b, d)) (invariant_terms M pair own idxs cache) = true <->
   exists a' b' d', a' < M /\ b' < M /\ d' < M /\ In (place M (a', b', d')) idxs /\
     (pair = true -> ~ In (a', b') cache) /\ a' = a /\ (own = true -> b' = b) /\ (pair = false -> d' = d)).
Proof.
  intros M pair own. induction idxs as [|e idxs IH]; intros cache a b d Hb; cbn [invariant_terms].
  - split; [discriminate|]. intros (a' & b' & d' & _ & _ & _ & [] & _).
  - destruct (place_config M e) as (Ve & Pe); [apply Hb; left; auto|].
    destruct (pc_config_of_enum_idx M e) as ((a0 & b0) & d0). destruct Ve as (Va & Vb & Vd).
    assert (Cx : existsb (fun t => (fst t =? a0) && (snd t =? b0)) cache = true <-> In (a0, b0) cache).
    { rewrite existsb_exists. split.
      - intros ((x & y) & H1 & H2). apply andb_true_iff in H2. cbn in H2. rewrite !Nat.eqb_eq in H2. destruct H2 as (<- & <-). auto.
      - intros H. exists (a0, b0). split; auto. cbn. rewrite !Nat.eqb_refl. auto. }
    assert (Hb' : forall e', In e' idxs -> e' < M * M * M) by (intros e' He'; apply Hb; right; auto).
    assert (Un : forall a' b' d', a' < M -> b' < M -> d' < M -> e = place M (a', b', d') -> (a', b', d') = (a0, b0, d0)).
    { intros a' b' d' H1 H2 H3 E. rewrite E in Pe. apply place_inj in Pe; [congruence|cbn; auto|cbn; auto]. }
    destruct (pair && existsb (fun t => (fst t =? a0) && (snd t =? b0)) cache) eqn:C.
    + apply andb_true_iff in C. destruct C as (Cp & C). apply Cx in C. rewrite IH by auto. split.
      * intros (a' & b' & d' & H1 & H2 & H3 & H4 & H5). exists a', b', d'. repeat split; auto; try tauto. right. auto.
      * intros (a' & b' & d' & H1 & H2 & H3 & [H4|H4] & H5 & H6); [|exists a', b', d'; auto 10].
        apply Un in H4; auto. injection H4 as -> -> ->. exfalso. apply (H5 Cp). auto.
    + cbn [existsb]. rewrite orb_true_iff, IH by auto.
      assert (Th : term_holds ((0, a0) :: (if own then [(1, b0)] else []) ++ (if pair then [] else [(2, d0)])) (a, b, d) = true <->
        a0 = a /\ (own = true -> b0 = b) /\ (pair = false -> d0 = d)).
      { unfold term_holds. destruct own, pair; cbn; rewrite ?andb_true_iff, ?Nat.eqb_eq; split; intros X; repeat split; intros; try discriminate;
          try (symmetry; tauto); destruct X as (X1 & X2 & X3); auto; try (symmetry; auto). }
      rewrite Th. split.
      * intros [(T1 & T2 & T3)|(a' & b' & d' & H1 & H2 & H3 & H4 & H5 & H6)].
        -- exists a0, b0, d0. split; auto. split; auto. split; auto. split; [left; auto|]. split; [|auto].
           intros Hp K. apply Cx in K. rewrite Hp, K in C. discriminate.
        -- exists a', b', d'. split; auto. split; auto. split; auto. split; [right; auto|]. split; [|auto].
           intros Hp K. apply (H5 Hp). right. auto.
      * intros (a' & b' & d' & H1 & H2 & H3 & H4 & H5 & H6 & H7 & H8).
        destruct H4 as [H4|H4].
        -- apply Un in H4; auto. injection H4 as -> -> ->. auto.
        -- destruct pair.
           ++ destruct (Nat.eq_dec a' a0) as [Ea|Ea]; [destruct (Nat.eq_dec b' b0) as [Eb|Eb]|].
              ** left. subst. split; auto. split; auto. discriminate.
              ** right. exists a', b', d'. do 4 (split; [auto|]). split; [|auto]. intros _ [K|K]; [congruence|]. apply (H5 eq_refl K).
              ** right. exists a', b', d'. do 4 (split; [auto|]). split; [|auto]. intros _ [K|K]; [congruence|]. apply (H5 eq_refl K).
           ++ right. exists a', b', d'. do 4 (split; [auto|]). split; [discriminate|auto].
Qed.

Theorem C103_invariant : forall M s a b d, length s = M * M * M -> a < M -> b < M -> d < M ->
  (spec_invariant M false s (a, b, d) = true <-> in_table M s (a, b, d)) /\
  (spec_invariant M true s (a, b, d) = true <-> exists d', d' < M /\ in_table M s (a, b, d')).
Proof.
  intros M s a b d L Ha Hb Hd. unfold spec_invariant, oput_biring_invariant.
  assert (B : forall e, In e (members s) -> e < M * M * M) by (intros e He; apply members_in, ck_bound in He; lia).
  rewrite !terms_iff by auto. split; split.
  - intros (a' & b' & d' & H1 & H2 & H3 & H4 & _ & -> & E1 & E2). rewrite <- E1, <- E2 by auto. apply members_in in H4. exact H4.
  - intros K. exists a, b, d. repeat split; auto; try discriminate. apply members_in. exact K.
  - intros (a' & b' & d' & H1 & H2 & H3 & H4 & _ & -> & E1 & _). exists d'. split; auto. rewrite <- E1 by auto. apply members_in in H4. exact H4.
  - intros (d' & H & K). exists a, b, d'. repeat split; auto; try discriminate. apply members_in. exact K.
Qed.
Print Assumptions C103_invariant.

(** The action of the specification with one more value is enabled exactly if the
    three values are old ones and no old value of the process would do. *)
Theorem C103_guard : forall M s a b d, length s = M * M * M -> a <= M -> b <= M -> d <= M ->
  (spec_guard M s (a, b, d) = true <->
   a < M /\ b < M /\ d < M /\ forall c, c < M -> ~ in_table M s (a, c, d)).
Proof.
  intros M s a b d L Ha Hb Hd. unfold spec_guard.
  assert (B : forall e, In e (members s) -> e < M * M * M) by (intros e He; apply members_in, ck_bound in He; lia).
  pose proof (terms_iff M false false (members s) [] a b d B) as T. fold (oput_biring_invariant M false false s) in T.
  assert (N : forallb (fun t => negb (term_holds t (a, b, d))) (oput_biring_invariant M false false s) =
              negb (existsb (fun t => term_holds t (a, b, d)) (oput_biring_invariant M false false s))).
  { generalize (oput_biring_invariant M false false s) as l. induction l as [|t l IH]; [reflexivity|].
    cbn [forallb existsb]. rewrite IH, negb_orb. auto. }
  rewrite N. rewrite !andb_true_iff, !negb_true_iff, !Nat.eqb_neq. split.
  - intros (((H1 & H2) & H3) & H4). split; [lia|]. split; [lia|]. split; [lia|]. intros c Hc K.
    assert (X : existsb (fun t => term_holds t (a, b, d)) (oput_biring_invariant M false false s) = true); [|congruence].
    apply T. exists a, c, d. repeat split; auto; try discriminate; try lia. apply members_in. exact K.
  - intros (H1 & H2 & H3 & H4). split; [repeat split; lia|].
    destruct (existsb (fun t => term_holds t (a, b, d)) (oput_biring_invariant M false false s)) eqn:E; auto.
    destruct (proj1 T eq_refl) as (a' & b' & d' & X1 & X2 & X3 & X4 & _ & -> & _ & X5). rewrite X5 in X4 by auto.
    exfalso. apply (H4 b' X2). apply members_in in X4. exact X4.
Qed.
Print Assumptions C103_guard.

(** The sizes of rings that are asked for are possible. *)
Definition possible (M minsz : nat) (t : list bool) : Prop :=
  (minsz = 0 -> exists N, forall n, N <= n -> 1 <= n -> satisfiable M (in_table M t) n) /\
  (1 <= minsz -> forall n, minsz <= n -> satisfiable M (in_table M t) n).
(** [t] has some of the views of [s], and not all. *)
Definition proper_part (M : nat) (t s : list bool) : Prop :=
  (forall a b d, a < M -> b < M -> d < M -> in_table M t (a, b, d) -> in_table M s (a, b, d)) /\
  exists a b d, a < M /\ b < M /\ d < M /\ in_table M s (a, b, d) /\ ~ in_table M t (a, b, d).

Lemma possible_ok : forall M minsz t, sizes_ok M minsz t <-> possible M minsz t.
Proof.
  intros M minsz t. unfold sizes_ok, possible. destruct (Nat.eqb_spec minsz 0) as [->|H].
  - split; [intros X; split; [auto|lia]|intros (X & _); auto].
  - split; [intros X; split; [lia|auto]|intros (_ & X); apply X; lia].
Qed.

Lemma echo_spec : forall M gt minsz fuel bt, 2 ^ (M * M * M) < fuel -> length bt = M * M * M -> forall idxs db,
  exists db', echo_loop M gt minsz fuel bt idxs db = Some db' /\ incl db db' /\ (NoDup db -> NoDup db') /\
    (forall c, In c db' -> In c db \/ exists i s, In i idxs /\ biring_fixpoint M (set_bit bt i false) = Some s /\
       sizes_ok M minsz s /\ c = canonical_set M gt s) /\
    forall i s, In i idxs -> biring_fixpoint M (set_bit bt i false) = Some s -> sizes_ok M minsz s -> In (canonical_set M gt s) db'.
Proof.
  intros M gt minsz fuel bt Hf L. induction idxs as [|i idxs IH]; intros db; cbn [echo_loop].
  - exists db. split; auto. split; [apply incl_refl|]. split; auto. split; auto. intros i s [].
  - destruct (C101_fixpoint M (set_bit bt i false)) as (s & E & Ls & _); [rewrite set_bit_length; auto|]. rewrite E.
    rewrite set_bit_length in Ls.
    assert (SZ : exists b, biring_sat_ck M fuel s minsz = Some b /\ (b = true <-> sizes_ok M minsz s)).
    { unfold sizes_ok. destruct (Nat.eqb_spec minsz 0) as [->|H0].
      - apply (C101_large M s fuel); unfold bits in *; [congruence|auto].
      - apply (C101_sizes M s fuel minsz); unfold bits in *; [congruence|auto|lia]. }
    destruct SZ as (b & Eb & SZ). rewrite Eb. destruct b.
    + set (db1 := if existsb (bits_eqb (canonical_set M gt s)) db then db else db ++ [canonical_set M gt s]).
      assert (D1 : incl db db1 /\ (NoDup db -> NoDup db1) /\ In (canonical_set M gt s) db1 /\
        forall c, In c db1 -> In c db \/ c = canonical_set M gt s).
      { unfold db1. destruct (existsb (bits_eqb (canonical_set M gt s)) db) eqn:X.
        - apply existsb_exists in X. destruct X as (c & X1 & X2). apply bits_eqb_eq in X2. subst c.
          split; [apply incl_refl|]. auto.
        - split; [intros c Hc; apply in_or_app; auto|]. split.
          + intros N. apply NoDup_Add with (a := canonical_set M gt s) (l := db).
            * pose proof (Add_app (canonical_set M gt s) db []) as A. rewrite app_nil_r in A. exact A.
            * split; auto. intros Y. assert (existsb (bits_eqb (canonical_set M gt s)) db = true); [|congruence].
              apply existsb_exists. exists (canonical_set M gt s). split; auto. apply bits_eqb_eq. auto.
          + split; [apply in_or_app; right; left; auto|]. intros c Hc. apply in_app_or in Hc. destruct Hc as [Hc|[Hc|[]]]; auto. }
      destruct D1 as (D1 & D2 & D3 & D4). destruct (IH db1) as (db' & H1 & H2 & H3 & H4 & H5).
      exists db'. split; auto. split; [intros c Hc; auto|]. split; auto. split.
      * intros c Hc. destruct (H4 c Hc) as [K|(j & s' & J1 & J2)].
        -- apply D4 in K. destruct K as [K|K]; auto. right. exists i, s. split; [left; auto|]. split; auto. split; auto. apply SZ. auto.
        -- right. exists j, s'. split; [right; auto|auto].
      * intros j s' [<-|Hj] J1 J2; [|eauto]. rewrite E in J1. injection J1 as <-. apply H2. exact D3.
    + destruct (IH db) as (db' & H1 & H2 & H3 & H4 & H5). exists db'. split; auto. split; auto. split; auto. split.
      * intros c Hc. destruct (H4 c Hc) as [K|(j & s' & J1 & J2)]; auto. right. exists j, s'. split; [right; auto|auto].
      * intros j s' [<-|Hj] J1 J2; [|eauto]. rewrite E in J1. injection J1 as <-. apply SZ in J2. discriminate.
Qed.

(** The smaller sets that are printed: no two are the same up to names, each is a
    proper part of the given set in which all views occur and with the sizes asked
    for, and every proper part with these sizes is inside of one of them. *)
Theorem C103_subsets : forall M gt minsz fuel s, strict_total gt -> 2 ^ (M * M * M) < fuel -> length s = M * M * M ->
  exists db, echo_subsets M gt minsz fuel s = Some db /\ NoDup db /\
    (forall c c', In c db -> In c' db -> isomorphic M c c' -> c = c') /\
    (forall c, In c db -> exists t, length t = M * M * M /\ isomorphic M t c /\ proper_part M t s /\ possible M minsz t /\
       forall a b d, a < M -> b < M -> d < M -> in_table M t (a, b, d) -> occurs M (in_table M t) (a, b, d)) /\
    forall t, length t = M * M * M -> proper_part M t s -> possible M minsz t ->
      exists c f, In c db /\ renaming M f /\
        forall a b d, a < M -> b < M -> d < M -> occurs M (in_table M t) (a, b, d) -> in_table M c (f a, f b, f d).
Proof.
  intros M gt minsz fuel s G Hf L. destruct (echo_spec M gt minsz fuel s Hf L (members s) []) as (db & E & _ & N & P1 & P2).
  exists db. split; [exact E|]. split; [apply N; constructor|].
  assert (FX : forall i s', biring_fixpoint M (set_bit s i false) = Some s' -> length s' = M * M * M /\
    forall a b d, a < M -> b < M -> d < M -> (in_table M s' (a, b, d) <-> occurs M (in_table M (set_bit s i false)) (a, b, d))).
  { intros i s' F. destruct (C101_fixpoint M (set_bit s i false)) as (s2 & E2 & L2 & F2); [rewrite set_bit_length; auto|].
    assert (s2 = s') by congruence. subst s2. rewrite set_bit_length in L2. split; [congruence|auto]. }
  assert (OC : forall V a b d, occurs M V (a, b, d) -> V (a, b, d)).
  { intros V a b d (n & x & i & (_ & _ & X1) & X2 & <-). auto. }
  assert (CL : forall i a b d, i < length s -> a < M -> b < M -> d < M ->
    (in_table M (set_bit s i false) (a, b, d) <-> in_table M s (a, b, d) /\ i <> place M (a, b, d))).
  { intros i a b d Hi Ha Hb Hd. change (ck (set_bit s i false) (place M (a, b, d)) = true <-> ck s (place M (a, b, d)) = true /\ i <> place M (a, b, d)).
    rewrite ck_set_bit by auto. destruct (Nat.eqb_spec i (place M (a, b, d))); split; intros; try discriminate; tauto. }
  split; [|split].
  - intros c c' H H' I. destruct (P1 c H) as [[]|(i & t & _ & T1 & _ & ->)]. destruct (P1 c' H') as [[]|(i' & t' & _ & T1' & _ & ->)].
    apply FX in T1, T1'. apply canonical_iff; try tauto. apply (iso_trans M t (canonical_set M gt t)); [apply canonical_iso; tauto|].
    apply (iso_trans M _ (canonical_set M gt t')); [exact I|]. apply iso_sym. apply canonical_iso; tauto.
  - intros c H. destruct (P1 c H) as [[]|(i & t & I1 & T1 & T2 & ->)]. destruct (FX i t T1) as (Lt & T3). exists t.
    apply members_in in I1. pose proof (ck_bound _ _ I1) as B.
    split; auto. split; [apply canonical_iso; auto|]. split; [split|].
    + intros a b d Ha Hb Hd K. apply T3 in K; auto. apply OC in K. apply CL in K; tauto.
    + destruct (place_config M i) as (Vi & Pi); [unfold bits in *; lia|]. destruct (pc_config_of_enum_idx M i) as ((a & b) & d).
      destruct Vi as (Va & Vb & Vd). exists a, b, d. split; auto. split; auto. split; auto. rewrite <- Pi in I1. split; [exact I1|].
      intros K. apply T3 in K; auto. apply OC in K. apply CL in K; auto. destruct K as (_ & K). auto.
    + split; [apply possible_ok; auto|]. intros a b d Ha Hb Hd K. apply T3 in K; auto.
      destruct K as (n & x & j & X1 & X2). exists n, x, j. split; [|exact X2].
      apply (C101_same_states M (set_bit s i false) t n x); auto. rewrite set_bit_length. auto.
  - intros t Lt (Sub & a & b & d & Ha & Hb & Hd & K1 & K2) PT.
    assert (B : place M (a, b, d) < length s) by (apply (ck_bound s); exact K1).
    set (i := place M (a, b, d)) in *.
    destruct (C101_fixpoint M (set_bit s i false)) as (s' & F & _ & _); [rewrite set_bit_length; auto|].
    destruct (FX i s' F) as (Ls' & F').
    assert (R : forall n x, legit_ring M (in_table M t) n x -> legit_ring M (in_table M (set_bit s i false)) n x).
    { intros n x (X1 & X2 & X3). split; auto. split; auto. intros j Hj. pose proof (X3 j Hj) as Y.
      assert (V : valid M (view n x j)) by (split; [|split]; cbn; apply X2; auto; apply Nat.mod_upper_bound; lia).
      destruct (view n x j) as ((a' & b') & d'). destruct V as (V1 & V2 & V3). apply CL; auto. split; auto.
      intros Q. unfold i in Q. apply place_inj in Q; [|cbn; auto|cbn; auto]. rewrite Q in K2. auto. }
    assert (SO : sizes_ok M minsz s').
    { apply possible_ok in PT. unfold sizes_ok in *.
      assert (Y : forall n, satisfiable M (in_table M t) n -> satisfiable M (in_table M s') n).
      { intros n (x & X). exists x. apply (C101_same_states M (set_bit s i false) s' n x); auto. rewrite set_bit_length. auto. }
      destruct (minsz =? 0); [destruct PT as (N0 & PT); exists N0|]; auto. }
    assert (IC : In (canonical_set M gt s') db).
    { apply (P2 i s'); auto. apply members_in. exact K1. }
    destruct (canonical_iso M gt G s' Ls') as (f & Rf & _ & T). exists (canonical_set M gt s'), f. split; auto. split; auto.
    intros a' b' d' Ha' Hb' Hd' (n & x & j & X1 & X2). apply T; auto. apply F'; auto. exists n, x, j. auto.
Qed.
Print Assumptions C103_subsets.

(** The two smallest known sets are instances of the pattern. *)
Theorem C103_known_match : forall M s, length s = M * M * M ->
  (2 <= M -> subck_configs M configs_2match s = Some true -> subck_match M s = true) /\
  (3 <= M -> subck_configs M configs_3match s = Some true -> subck_match M s = true).
Proof.
  intros M s L. split; intros HM E.
  - destruct (C103_known M configs_2match s L) as (r & E1 & R).
    { intros a b d [K|[K|[K|[K|[]]]]]; injection K as <- <- <-; lia. }
    rewrite E in E1. injection E1 as <-. destruct (proj1 R eq_refl) as (f & (R1 & R2) & F). apply C103_match.
    exists (f 1), (f 0), (f 0), (f 0). split; [apply R1; lia|]. split; [apply R1; lia|]. split; [apply R1; lia|]. split; [apply R1; lia|].
    assert (N : f 1 <> f 0) by (intros X; apply R2 in X; lia). split; [left; auto|].
    repeat split; apply F; cbn; auto 10.
  - destruct (C103_known M configs_3match s L) as (r & E1 & R).
    { intros a b d [K|[K|[K|[K|[K|[]]]]]]; injection K as <- <- <-; lia. }
    rewrite E in E1. injection E1 as <-. destruct (proj1 R eq_refl) as (f & (R1 & R2) & F). apply C103_match.
    exists (f 0), (f 1), (f 1), (f 2). split; [apply R1; lia|]. split; [apply R1; lia|]. split; [apply R1; lia|]. split; [apply R1; lia|].
    assert (N1 : f 0 <> f 1) by (intros X; apply R2 in X; lia). assert (N2 : f 0 <> f 2) by (intros X; apply R2 in X; lia). split; [left; auto|].
    repeat split; apply F; cbn; auto 10.
Qed.
Print Assumptions C103_known_match.

(** With two values: the second set of the example of C102 is the only one inside of
    the first, and it has the pattern. *)
Theorem C103_example :
  let s := tab [(0,0,1); (0,1,0); (1,0,0); (1,0,1); (0,1,1); (1,1,0)] in
  let t := tab [(0,0,1); (0,1,0); (1,0,0); (1,0,1)] in
  strict_total lex_gt /\ 2 ^ (2 * 2 * 2) < 257 /\ length s = 2 * 2 * 2 /\
  echo_subsets 2 lex_gt 3 257 s = Some [t] /\ echo_subsets 2 lex_gt 3 257 t = Some [] /\
  subck_match 2 t = true /\ subck_match 2 (tab [(0,0,1); (0,1,0); (1,0,0)]) = false /\
  subck_configs 2 configs_2match t = Some true /\ subck_configs 2 configs_2match (tab [(0,0,1); (0,1,0); (1,0,0)]) = Some false /\
  oput_biring_invariant 2 true true t = [[(0,0); (1,0)]; [(0,1); (1,0)]; [(0,0); (1,1)]] /\
  spec_invariant 2 true t (1, 0, 1) = true /\ spec_invariant 2 true t (1, 1, 0) = false /\
  spec_guard 2 (tab [(0,0,1); (0,1,0); (1,0,0)]) (1, 0, 1) = true /\ spec_guard 2 t (1, 0, 1) = false.
Proof. split; [exact lex_strict_total|]. repeat split; vm_compute; reflexivity. Qed.
Print Assumptions C103_example.
