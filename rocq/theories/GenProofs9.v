(** The whole search in terms of tables, with and without given actions. *)
From Coq Require Import List Arith Lia Bool.
From Verif Require Import FinLib UniModel UniSpec UniProofs LivelockModel LivelockSpec LivelockProofs
  TileModel TileSpec TileProofs TileProofs2 CanonModel CanonSpec CanonProofs
  GenModel GenSpec GenProofs GenProofs2 GenProofs3 GenProofs4 GenProofs5 GenProofs6 GenProofs7 GenProofs8.
Import ListNotations.

Lemma upto_cntp : forall M t i, i < M * M -> upto M t i = cntp M t 0 (S i).
Proof.
  intros M t i Hi. unfold upto, positions, cntp. rewrite Nat.sub_0_r.
  replace (M * M) with (S i + (M * M - S i)) by lia. rewrite seq_app, !filter_app, app_length.
  assert (A : forall l, (forall p, In p l -> p <= i) ->
    length (filter (fun p => p <=? i) (filter (fun p => nth p t M <? M) l)) = length (filter (fun p => nth p t M <? M) l)).
  { induction l as [|x l IH]; intros H; [reflexivity|]. cbn [filter].
    assert (IH' := IH (fun p Hp => H p (or_intror Hp))). destruct (nth x t M <? M); [|auto].
    cbn [filter]. rewrite (proj2 (Nat.leb_le x i)) by (apply H; left; auto). cbn [length]. auto. }
  assert (B : forall l, (forall p, In p l -> i < p) ->
    length (filter (fun p => p <=? i) (filter (fun p => nth p t M <? M) l)) = 0).
  { induction l as [|x l IH]; intros H; [reflexivity|]. cbn [filter].
    assert (IH' := IH (fun p Hp => H p (or_intror Hp))). destruct (nth x t M <? M); [|auto].
    cbn [filter]. rewrite (proj2 (Nat.leb_gt x i)) by (apply H; left; auto). auto. }
  rewrite A, B; [lia| |]; intros p Hp; apply in_seq in Hp; lia.
Qed.

Lemma nth_tabulate : forall (f : nat -> nat) len i d, i < len -> nth i (map f (seq 0 len)) d = f i.
Proof.
  intros f len i d H. rewrite (nth_indep _ d (f 0)) by (rewrite map_length, seq_length; auto).
  rewrite map_nth, seq_nth by auto. auto.
Qed.

Section Tables.
Variable o : SearchOpt.
Notation M := (domsz o).
Notation N := (domsz o * domsz o * domsz o).
Notation inn := (in_set (domsz o)).
Notation nw := (nw_disabling o).
Hypothesis M0 : M <> 0.

(** Printed tables, without regard to the depth limit. *)
Definition hard (t : list nat) : Prop :=
  table_ok M t /\ admissible nw (table_protocol M t) /\ canonical_ck t M = true /\
  livelock_semick (max_period o) t M = RMay /\
  forall a b c, table_protocol M t a b c -> recurs (table_protocol M t) a b.

Definition set_of (t : list nat) : list bool := actset_of_ppgfun t M.

Lemma set_of_len : forall t, length (set_of t) = N.
Proof. intros. apply actset_of_ppgfun_length. auto. Qed.

Lemma inn_set_of : forall t, table_ok M t -> forall a b c, inn (set_of t) a b c <-> table_protocol M t a b c.
Proof. intros t Ok. apply (set_of_tab M M0 t Ok). Qed.

Lemma tab_set_of : forall t, table_ok M t -> tab o (set_of t) = t.
Proof. intros t Ok. apply ppgfun_of_actset_of_ppgfun; auto. Qed.

Lemma admissible_iff : forall b P Q, (forall a b c, P a b c <-> Q a b c) -> (admissible b P <-> admissible b Q).
Proof. intros b P Q H. split; apply admissible_sub; intros; apply H; auto. Qed.

Lemma recurs_iff2 : forall P Q, (forall a b c, P a b c <-> Q a b c) -> forall a b, recurs P a b <-> recurs Q a b.
Proof. intros P Q H a b. split; apply recurs_mono; intros; apply H; auto. Qed.

Lemma starts_iff : forall P Q, (forall a b c, P a b c <-> Q a b c) -> (starts P <-> starts Q).
Proof.
  assert (G : forall P Q : protocol, (forall a b c, P a b c <-> Q a b c) -> starts P -> starts Q).
  { intros P Q H. unfold starts. intros [A|[[A B]|(A & B & C)]].
    - left. apply H. auto.
    - right. left. split; [|apply H; auto]. intros a b Hq. apply H in Hq. apply (A a b Hq).
    - right. right. split; [|split; [|apply H; auto]].
      + intros a b Hq. apply H in Hq. apply (A a b Hq).
      + intros a b Hq. apply H in Hq. apply (B a b Hq). }
  intros P Q H. split; apply G; auto. intros. symmetry. apply H.
Qed.

Lemma hard_good : forall s, good o s -> hard (tab o s) /\ set_of (tab o s) = s.
Proof.
  intros s (L & HA & C & S & R). pose proof (proj1 HA) as D.
  destruct (tab_spec M M0 s L D) as [Ok HT]. split.
  - split; [auto|]. split; [apply (admissible_iff nw _ (inn s)); auto|]. split; [auto|]. split; [auto|].
    intros a b c H. apply (recurs_iff2 _ (inn s)); auto. apply (R a b c). apply HT. auto.
  - apply set_of_set; auto.
Qed.

Lemma good_hard : forall t, hard t -> good o (set_of t) /\ tab o (set_of t) = t.
Proof.
  intros t (Ok & HA & C & S & R). pose proof (tab_set_of t Ok) as E. split; [|auto].
  split; [apply set_of_len|]. split; [apply (admissible_iff nw (inn (set_of t)) (table_protocol M t)); auto; apply inn_set_of; auto|].
  rewrite E. split; [auto|]. split; [auto|]. intros a b c H. apply inn_set_of in H; auto.
  apply (recurs_iff2 _ (table_protocol M t)); [apply inn_set_of; auto|]. eauto.
Qed.

(** * Depth limit *)
Lemma stops_cut : forall s h g x, length s = N -> deterministic (inn s) -> mem s h ->
  upto M (tab o s) (pos o h) = g -> h <= x -> mem s x ->
  (stops o h s x <-> cut_at M g (max_depth o) (dfs_threshold o) (tab o s) (pos o x)).
Proof.
  intros s h g x L D Hh Hg Hx Hm. pose proof (mem_lt _ _ Hh) as Lh. pose proof (mem_lt _ _ Hm) as Lx.
  pose proof (pos_lt o M0 x ltac:(lia)) as Px. pose proof (pos_lt o M0 h ltac:(lia)) as Ph.
  pose proof (pos_mono o M0 h x Hx) as Pm.
  assert (Ec : upto M (tab o s) (pos o x) + 1 = g + cnt o h s x).
  { rewrite upto_cntp in * by auto. unfold cnt.
    rewrite (cntp_split M _ 0 (S (pos o h)) (S (pos o x))) by lia. lia. }
  assert (Hocc : nth (pos o x) (tab o s) M < M).
  { apply tab_occ; auto. exists (x mod M). destruct (pos_eq o M0 x) as [E R]. rewrite <- E. auto. }
  unfold stops, cut_at, far. split.
  - intros (_ & Hf & Hc & z & Hz & Hlt). split; [auto|]. split; [auto|]. split; [auto|].
    assert (1 <= cnt o h s x) by (unfold cnt; lia). split; [lia|]. split; [lia|].
    exists (pos o z). pose proof (mem_lt _ _ Hz). split; [split; [|apply (pos_lt o M0); lia]|].
    + pose proof (pos_mono o M0 x z ltac:(lia)). destruct (Nat.eq_dec (pos o x) (pos o z)) as [E|]; [|lia].
      apply (det_pos o M0 s) in E; auto. lia.
    + apply tab_occ; auto; [apply (pos_lt o M0); lia|]. exists (z mod M). destruct (pos_eq o M0 z) as [E R]. rewrite <- E. auto.
  - intros (_ & _ & Hf & H1 & Hc & j & Hj & Hjo). split; [auto|]. split; [auto|]. split; [lia|].
    apply tab_occ in Hjo; auto; [|lia]. destruct Hjo as (v & Hv & Hz). exists (j * M + v). split; [auto|].
    destruct (Nat.le_gt_cases (j * M + v) x) as [Hle|]; [|auto]. apply (pos_mono o M0) in Hle.
    rewrite pos_of in Hle by auto. lia.
Qed.

Lemma cut_off_stops : forall s h g, length s = N -> deterministic (inn s) -> mem s h ->
  upto M (tab o s) (pos o h) = g ->
  ((exists x, h <= x /\ stops o h s x) <-> cut_off M g (max_depth o) (dfs_threshold o) (tab o s)).
Proof.
  intros s h g L D Hh Hg. pose proof (mem_lt _ _ Hh) as Lh. pose proof (pos_lt o M0 h ltac:(lia)) as Ph. split.
  - intros (x & Hx & HS). exists (pos o x). apply (stops_cut s h g x); auto. apply HS.
  - intros (i & HC). pose proof HC as (Hi & Ho & _ & H1 & Hu & _).
    apply tab_occ in Ho; auto. destruct Ho as (v & Hv & Hm). exists (i * M + v).
    assert (Hx : h <= i * M + v).
    { destruct (Nat.le_gt_cases h (i * M + v)) as [|Hlt]; [auto|]. exfalso.
      pose proof (pos_mono o M0 (i * M + v) h ltac:(lia)) as Hp. rewrite pos_of in Hp by auto.
      assert (Hne : i <> pos o h).
      { intros E. assert (i * M + v = h); [|lia]. apply (det_pos o M0 s); auto. rewrite pos_of; auto. }
      rewrite upto_cntp in * by auto.
      rewrite (cntp_split M _ 0 (S i) (S (pos o h))) in Hg by lia.
      rewrite (cntp_split M _ (S i) (pos o h) (S (pos o h))) in Hg by lia.
      rewrite (cntp_one M _ (pos o h)) in Hg; [lia|]. apply tab_occ; auto. exists (h mod M).
      destruct (pos_eq o M0 h) as [E R]. rewrite <- E. auto. }
    split; [auto|]. apply (stops_cut s h g); auto. rewrite pos_of; auto.
Qed.

Lemma no_stops : forall s h g, length s = N -> deterministic (inn s) -> mem s h ->
  upto M (tab o s) (pos o h) = g ->
  ((forall x, h <= x -> ~ stops o h s x) <-> ~ cut_off M g (max_depth o) (dfs_threshold o) (tab o s)).
Proof.
  intros s h g L D Hh Hg. rewrite <- (cut_off_stops s h g) by auto. split.
  - intros H (x & Hx & HS). apply (H x Hx HS).
  - intros H x Hx HS. apply H. eauto.
Qed.

Lemma tab_cut : forall s x, length s = N -> deterministic (inn s) -> mem s x ->
  tab o (cut s x) = first_actions M (tab o s) (pos o x).
Proof.
  intros s x L D Hm. pose proof (mem_lt _ _ Hm) as Lx.
  assert (Lc : length (cut s x) = N) by (rewrite cut_length; lia).
  assert (Dc : deterministic (inn (cut s x))).
  { assert (Q : forall a b c, inn (cut s x) a b c -> inn s a b c).
    { intros a b c H. pose proof H as (Ha & Hb & Hc & _). apply (inn_trip o) in H; auto. destruct H as [H _].
      apply mem_cut in H; [|lia]. apply (mem_id o); auto. tauto. }
    intros a b c d H1 H2. apply (D a b c d); auto. }
  assert (Lt : length (tab o (cut s x)) = M * M) by (apply (tab_spec M M0 (cut s x) Lc Dc)).
  apply list_ext_nth with (d := M).
  { unfold first_actions. rewrite map_length, seq_length. auto. }
  intros p Hp. rewrite Lt in Hp. unfold first_actions.
  rewrite nth_tabulate by auto. destruct (Nat.leb_spec p (pos o x)) as [Hle|Hgt].
  - assert (Hseg : forall v, v < M -> (mem (cut s x) (p * M + v) <-> mem s (p * M + v))).
    { intros v Hv. rewrite mem_cut by lia. split; [tauto|]. intros H. split; [auto|].
      destruct (Nat.le_gt_cases (p * M + v) x) as [|Hl]; [auto|].
      pose proof (pos_mono o M0 x (p * M + v) ltac:(lia)) as Q. rewrite pos_of in Q by auto.
      assert (p * M + v = x); [|lia]. apply (det_pos o M0 s); auto. rewrite pos_of by auto. lia. }
    pose proof (nth_le M (tab o s) p (proj1 (tab_spec M M0 s L D))).
    destruct (Nat.eq_dec (nth p (tab o s) M) M) as [E|E].
    + rewrite E. apply (tab_none o M0); auto. intros v Hv Hq. apply Hseg in Hq; auto. apply (tab_mem o M0) in Hq; auto. lia.
    + apply (tab_mem o M0); auto; [lia|]. apply Hseg; [lia|]. apply (tab_mem o M0); auto; lia.
  - apply (tab_none o M0); auto. intros v Hv Hq. apply mem_cut in Hq; [|lia]. destruct Hq as [_ Hq].
    apply (pos_mono o M0) in Hq. rewrite pos_of in Hq by auto. lia.
Qed.

(** * Extension of a set *)
Lemma extends_seg : forall d s h, length d = N -> length s = N -> deterministic (inn d) -> deterministic (inn s) ->
  mem d h -> (forall y, mem d y -> y <= h) ->
  (extends M (tab o d) (tab o s) <-> forall x, x <= h -> (mem s x <-> mem d x)).
Proof.
  intros d s h Ld Ls Dd Ds Hh Hmax. pose proof (mem_lt _ _ Hh) as Lh. pose proof (pos_lt o M0 h ltac:(lia)) as Ph. split.
  - intros (k & HK) x Hx. assert (Hk : pos o h < k).
    { destruct (Nat.lt_ge_cases (pos o h) k); [auto|]. destruct (HK (pos o h) Ph) as [_ H1]. specialize (H1 H).
      assert (nth (pos o h) (tab o d) M < M); [|lia]. apply (tab_occ o M0); auto. exists (h mod M).
      destruct (pos_eq o M0 h) as [E R]. rewrite <- E. auto. }
    pose proof (pos_mono o M0 x h Hx). destruct (HK (pos o x) ltac:(lia)) as [H1 _]. specialize (H1 ltac:(lia)).
    destruct (pos_eq o M0 x) as [E R]. rewrite E. rewrite <- !(tab_mem o M0) by (auto; lia). rewrite H1. tauto.
  - intros Hseg. exists (S (pos o h)). intros i Hi.
    assert (Hs' : forall v, v < M -> i <= pos o h -> (mem s (i * M + v) <-> mem d (i * M + v))).
    { intros v Hv Hip. destruct (Nat.le_gt_cases (i * M + v) h); [apply Hseg; auto|]. split; intros H0.
      - assert (E : i * M + v = h); [|lia]. apply (det_pos o M0 s); auto; [apply Hseg; auto|]. rewrite pos_of by auto.
        pose proof (pos_mono o M0 h (i * M + v) ltac:(lia)) as Q. rewrite pos_of in Q by auto. lia.
      - apply Hmax in H0. lia. }
    split; intros Hip.
    + pose proof (nth_le M (tab o d) i (proj1 (tab_spec M M0 d Ld Dd))) as Q.
      destruct (Nat.eq_dec (nth i (tab o d) M) M) as [E|E].
      * rewrite E. apply (tab_none o M0); auto. intros v Hv Hm. apply Hs' in Hm; auto; [|lia]. apply (tab_mem o M0) in Hm; auto. lia.
      * apply (tab_mem o M0); auto; [lia|]. apply Hs'; try lia. apply (tab_mem o M0); auto; lia.
    + apply (tab_none o M0); auto. intros v Hv Hm. apply Hmax in Hm. apply (pos_mono o M0) in Hm. rewrite pos_of in Hm by auto. lia.
Qed.

(** * Without given actions *)
Lemma upto_min : forall s h, length s = N -> deterministic (inn s) -> mem s h -> (forall y, mem s y -> h <= y) ->
  upto M (tab o s) (pos o h) = 1.
Proof.
  intros s h L D Hh Hmin. pose proof (mem_lt _ _ Hh) as Lh. pose proof (pos_lt o M0 h ltac:(lia)) as Ph.
  rewrite upto_cntp by auto. rewrite (cntp_split M _ 0 (pos o h) (S (pos o h))) by lia.
  rewrite cntp_one, cntp_zero; [reflexivity| |].
  - intros p Hp Ho. apply (tab_occ o M0) in Ho; auto; [|lia]. destruct Ho as (v & Hv & Hm). apply Hmin in Hm.
    apply (pos_mono o M0) in Hm. rewrite pos_of in Hm by auto. lia.
  - apply (tab_occ o M0); auto. exists (h mod M). destruct (pos_eq o M0 h) as [E R]. rewrite <- E. auto.
Qed.

Lemma root_min : forall s, 3 <= M -> good o s -> started o s -> mem s (root o s) /\ forall y, mem s y -> root o s <= y.
Proof.
  intros s M3 G HS. pose proof (proj1 G) as L. destruct (i_val o M0 M3) as (E1 & E2 & E3 & E4).
  destruct (root_of o M0 M3 s G) as (R1 & R2 & R3).
  unfold started in HS. rewrite (starts_cases o M0 M3 s G) in HS.
  assert (K : forall act c, act < N -> cset (upd (none o) act true) c (act + 1) s -> mem s act /\ forall y, mem s y -> act <= y).
  { intros act c Ha H. apply cset_one in H; auto. destruct H as (H1 & H2 & _). split; [auto|]. intros y Hy.
    destruct (Nat.le_gt_cases act y); [auto|]. elim (H2 y); auto. }
  destruct HS as [HS|[HS|HS]]; [rewrite R1 by auto|rewrite R2 by auto|rewrite R3 by auto]; eapply K; eauto; nia.
Qed.

Theorem all_spec : 3 <= M -> exists p f, search_all o = Some (p, f) /\ NoDup p /\
  (forall t, In t p -> hard t /\ starts (table_protocol M t) /\ ~ cut_off M 1 (max_depth o) (dfs_threshold o) t) /\
  (exact o -> forall t, hard t -> starts (table_protocol M t) ->
     ~ cut_off M 1 (max_depth o) (dfs_threshold o) t -> In t p) /\
  (forall t0, In t0 f -> bfs o = true /\ table_ok M t0 /\ admissible nw (table_protocol M t0) /\ starts (table_protocol M t0) /\
     (trust_given o = false -> canonical_ck t0 M = true) /\ size M t0 = max_depth o) /\
  (exact o -> bfs o = true -> forall t, hard t -> starts (table_protocol M t) ->
     cut_off M 1 (max_depth o) (dfs_threshold o) t ->
     exists i, cut_at M 1 (max_depth o) (dfs_threshold o) t i /\ In (first_actions M t i) f).
Proof.
  intros M3. destruct (search_all_spec o M0 M3) as (p & f & E & H1 & H2 & H3 & H4 & H5).
  exists p, f. split; [auto|]. split; [auto|].
  assert (ST : forall s, good o s -> (started o s <-> starts (table_protocol M (tab o s)))).
  { intros s G. apply starts_iff. intros a b c. symmetry. apply tab_spec; auto; apply (good_det o); auto. }
  assert (NS : forall s, good o s -> started o s ->
     ((forall x, root o s <= x -> ~ stops o (root o s) s x) <-> ~ cut_off M 1 (max_depth o) (dfs_threshold o) (tab o s)) /\
     ((exists x, root o s <= x /\ stops o (root o s) s x) <-> cut_off M 1 (max_depth o) (dfs_threshold o) (tab o s)) /\
     (forall x, root o s <= x -> mem s x -> (stops o (root o s) s x <-> cut_at M 1 (max_depth o) (dfs_threshold o) (tab o s) (pos o x)))).
  { intros s G HS. destruct (good_det o s G) as [L D]. destruct (root_min s M3 G HS) as [Hr Hm].
    pose proof (upto_min s (root o s) L D Hr Hm) as HU.
    split; [apply no_stops; auto|]. split; [apply cut_off_stops; auto|]. intros x Hx Hmx. apply stops_cut; auto. }
  split; [|split; [|split]].
  - intros t Ht. apply H2 in Ht. destruct Ht as (s & <- & G & HS & HN). split; [apply hard_good; auto|].
    split; [apply ST; auto|]. apply NS; auto.
  - intros He t Hh Hs Hn. destruct (good_hard t Hh) as [G Et]. rewrite <- Et. apply H3; auto.
    + apply ST; auto. rewrite Et. auto.
    + apply NS; auto; [apply ST; auto|]; rewrite Et; auto.
  - intros t0 Ht. apply H4 in Ht. destruct Ht as (s & h & <- & (Fb & FL & FA & FC & x & X1 & X2 & X3 & X4 & X5) & HC).
    pose proof (proj1 FA) as D. destruct (tab_spec M M0 s FL D) as [Ok HT].
    split; [auto|]. split; [auto|]. split; [apply (admissible_iff nw _ (inn s)); auto|].
    destruct (i_val o M0 M3) as (E1 & E2 & E3 & E4).
    assert (Hmin : h < N -> forall c, cset (upd (none o) h true) c (h + 1) s -> mem s h /\ forall y, mem s y -> h <= y).
    { intros Ha c H. apply cset_one in H; auto. destruct H as (Q1 & Q2 & _). split; [auto|]. intros y Hy.
      destruct (Nat.le_gt_cases h y); [auto|]. elim (Q2 y); auto. }
    assert (Hst : starts (inn s) /\ mem s h /\ forall y, mem s y -> h <= y).
    { destruct HC as [[Eh HC]|[[Eh HC]|[Eh HC]]]; subst h.
      - split; [|eapply Hmin; eauto; nia]. left. apply cset_one in HC; auto; [|nia].
        apply (mem_id o); auto; try lia. apply HC.
      - split; [|eapply Hmin; eauto; nia]. right. left. apply cset_one in HC; auto; [|nia]. destruct HC as (Q1 & Q2 & Q3).
        split; [|apply (mem_id o); auto; lia]. apply (kinds o s FL). intros y Hy.
        destruct (lt_eq_lt_dec y (id_of3 0 1 0 M)) as [[Hl|He]|Hg].
        + elim (Q2 y); auto.
        + subst y. unfold aab. rewrite trip3 by lia. lia.
        + apply Q3 in Hy; auto. apply (c2_spec o M0) in Hy. tauto.
      - split; [|eapply Hmin; eauto; nia]. right. right. apply cset_one in HC; auto; [|nia]. destruct HC as (Q1 & Q2 & Q3).
        assert (Q : forall y, mem s y -> ~ aab o y /\ ~ aba o y).
        { intros y Hy. destruct (lt_eq_lt_dec y (id_of3 0 1 2 M)) as [[Hl|He]|Hg].
          + elim (Q2 y); auto.
          + subst y. unfold aab, aba. rewrite trip3 by lia. lia.
          + apply Q3 in Hy; auto. apply (c3_spec o M0) in Hy. tauto. }
        split; [apply (kinds o s FL); intros y Hy; apply Q; auto|].
        split; [apply (kinds o s FL); intros y Hy; apply Q; auto|apply (mem_id o); auto; lia]. }
    destruct Hst as (Hst & Hh & Hmn). split; [apply (starts_iff _ (inn s)); auto|]. split; [auto|].
    pose proof (upto_min s h FL D Hh Hmn) as HU. pose proof (mem_lt _ _ Hh). pose proof (mem_lt _ _ X1).
    pose proof (pos_lt o M0 h ltac:(lia)). pose proof (pos_lt o M0 x ltac:(lia)) as Px.
    rewrite upto_cntp in HU by auto. unfold cnt in X5. pose proof (pos_mono o M0 h x X3).
    assert (ES : size M (tab o s) = cntp M (tab o s) 0 (M * M)).
    { unfold size, positions, cntp. rewrite Nat.sub_0_r. reflexivity. }
    rewrite ES, (cntp_split M _ 0 (S (pos o x)) (M * M)) by lia.
    rewrite (cntp_split M _ 0 (S (pos o h)) (S (pos o x))) by lia.
    rewrite (cntp_zero M _ (S (pos o x)) (M * M)); [lia|].
    intros q Hq Ho. apply (tab_occ o M0) in Ho; auto; [|lia]. destruct Ho as (v & Hv & Hm). apply X2 in Hm.
    apply (pos_mono o M0) in Hm. rewrite pos_of in Hm by auto. lia.
  - intros He Hb t Hh Hs Hc. destruct (good_hard t Hh) as [G Et].
    assert (Hst : started o (set_of t)) by (apply ST; auto; rewrite Et; auto).
    destruct (NS _ G Hst) as (_ & N2 & N3). rewrite <- Et in Hc. apply N2 in Hc. destruct Hc as (x & Hx & HSx).
    destruct (H5 He Hb (set_of t) x G Hst Hx HSx) as (x' & X1 & X2 & X3).
    exists (pos o x'). pose proof X2 as (Hmx & _). rewrite <- Et at 1 2. split; [apply N3; auto|].
    rewrite <- (tab_cut (set_of t) x'); auto; apply (good_det o); auto.
Qed.
End Tables.
