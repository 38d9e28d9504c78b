(** The search from given actions. *)
From Coq Require Import List Arith Lia Bool.
From Verif Require Import FinLib UniModel UniSpec UniProofs LivelockModel LivelockSpec LivelockProofs
  LivelockProofs2 TileModel TileSpec TileProofs TileProofs2 CanonModel CanonSpec CanonProofs
  GenModel GenSpec GenProofs GenProofs2 GenProofs3 GenProofs4 GenProofs5 GenProofs6 GenProofs7 GenProofs8 GenProofs9.
Import ListNotations.

Section Given.
Variable o : SearchOpt.
Notation M := (domsz o).
Notation N := (domsz o * domsz o * domsz o).
Notation inn := (in_set (domsz o)).
Notation nw := (nw_disabling o).
Hypothesis M0 : M <> 0.

Definition idof (x : UniAct) : nat := let '(a, b, c) := x in id_of3 a b c M.
Definition inrange (x : UniAct) : Prop := let '(a, b, c) := x in a < M /\ b < M /\ c < M.

(** The candidates compatible with a set. *)
Definition avail (d c : list bool) : Prop :=
  length c = N /\ forall x, mem c x <-> x < N /\ based o x /\ ~ mem d x /\
    forall y, mem d y -> ~ conf nw (uniact_of_id y M) (uniact_of_id x M).

Lemma avail_step : forall d c i, length d = N -> avail d c -> i < N ->
  avail (upd d i true) (newc o c i).
Proof.
  intros d c i Ld [Lc Hc] Hi. split; [apply newc_length; auto|]. intros x.
  rewrite newc_spec by auto. rewrite Hc. split.
  - intros ((H1 & H2 & H3 & H4) & H5 & H6). split; [auto|]. split; [auto|]. split.
    + intros H. apply mem_set in H. destruct H as [H|[H _]]; auto.
    + intros y Hy. apply mem_set in Hy. destruct Hy as [Hy|[-> _]]; auto.
  - intros (H1 & H2 & H3 & H4). split; [split; [auto|split; [auto|split]]|split].
    + intros H. apply H3. apply mem_set. auto.
    + intros y Hy. apply H4. apply mem_set. auto.
    + intros ->. apply H3. apply mem_set. right. split; [auto|lia].
    + apply H4. apply mem_set. right. split; [auto|lia].
Qed.

Lemma take_spec : forall acts d c h f,
  length d = N -> avail d c -> Forall inrange acts -> NoDup (map idof acts) ->
  (forall x, In x (map idof acts) -> ~ mem d x) ->
  length f = N -> admissible nw (inn f) -> (forall x, mem f x <-> mem d x \/ In x (map idof acts)) ->
  exists c' h', take_given M nw acts d c h = Some (f, c', h') /\ avail f c' /\
    h <= h' /\ (forall x, In x (map idof acts) -> x <= h') /\ (h' = h \/ In h' (map idof acts)).
Proof.
  induction acts as [|[[a b] e] acts IH]; intros d c h f Ld Hav HR HN HD Lf HA HF.
  - exists c, h. assert (E : d = f).
    { apply set_ext; [congruence|]. intros i. rewrite HF. simpl. tauto. }
    subst d. cbn [take_given]. split; [reflexivity|]. split; [auto|]. split; [auto|]. split; [easy|auto].
  - inversion HR as [|? ? HR0 HR']; subst. destruct HR0 as (Ha & Hb & He). cbn [map idof] in *. inversion HN as [|? ? Hni HN']; subst.
    pose proof (id3_lt M a b e Ha Hb He) as Hlt. cbn [take_given].
    rewrite !(proj2 (Nat.ltb_lt _ _)) by auto. cbn [andb].
    set (i := id_of3 a b e M) in *. set (h1 := if h <? i then i else h).
    assert (Hh1 : h <= h1 /\ i <= h1 /\ (h1 = h \/ h1 = i)).
    { unfold h1. destruct (Nat.ltb_spec h i); lia. }
    assert (Hfi : mem f i) by (apply HF; right; left; auto).
    assert (Hdi : ~ mem d i) by (apply HD; left; auto).
    assert (Hci : mem c i).
    { apply Hav. split; [auto|]. split; [apply (adm_based o f); auto|]. split; [auto|]. intros y Hy.
      apply (adm_conf o f); auto; [apply HF; auto|]. intros ->. auto. }
    unfold mem in Hci. rewrite Hci.
    destruct (IH (upd d i true) (newc o c i) h1 f) as (c' & h' & E & Av & L1 & L2 & L3); auto.
    + rewrite upd_length. auto.
    + apply avail_step; auto.
    + intros x Hx H. apply mem_set in H. destruct H as [H|[-> _]]; [|auto]. apply (HD x); auto. right. auto.
    + intros x. rewrite HF, mem_set. cbn [In]. split.
      * intros [H|[H|H]]; auto. left. right. split; [auto|]. lia.
      * intros [[H|[H _]]|H]; auto.
    + unfold newc in E. exists c', h'. split; [exact E|]. split; [auto|]. split; [lia|]. split.
      * intros x [<-|Hx]; [lia|auto].
      * destruct L3 as [->|L3]; [|right; right; auto]. destruct Hh1 as (_ & _ & [->| ->]); [auto|right; left; auto].
Qed.

Section Run.
Variable t0 : list nat.
Hypothesis Ok0 : table_ok M t0.
Hypothesis Giv : given_acts o = actions_of_ppgfun t0 M.
Hypothesis Ad0 : admissible nw (table_protocol M t0).
Hypothesis St0 : starts (table_protocol M t0).
Hypothesis Ca0 : trust_given o = false -> canonical_ck t0 M = true.

Let f := set_of o t0.

Lemma f_len : length f = N. Proof. apply set_of_len; auto. Qed.
Lemma f_inn : forall a b c, inn f a b c <-> table_protocol M t0 a b c. Proof. apply inn_set_of; auto. Qed.
Lemma f_adm : admissible nw (inn f).
Proof. apply (admissible_iff nw _ (table_protocol M t0)); auto. apply f_inn. Qed.
Lemma f_det : deterministic (inn f). Proof. apply f_adm. Qed.
Lemma f_starts : starts (inn f). Proof. apply (starts_iff _ (table_protocol M t0)); auto. apply f_inn. Qed.
Lemma f_tab : tab o f = t0. Proof. apply tab_set_of; auto. Qed.

Lemma given_range : Forall inrange (given_acts o).
Proof.
  rewrite Giv. apply Forall_forall. intros [[a b] c] H. apply (actions_of_ppgfun_spec M t0 M0 (proj1 Ok0)) in H.
  apply (table_protocol_range M t0 a b c H).
Qed.

Lemma given_ids : forall x, In x (map idof (given_acts o)) <-> mem f x.
Proof.
  intros x. rewrite in_map_iff. rewrite Giv. split.
  - intros ([[a b] c] & <- & H). apply (actions_of_ppgfun_spec M t0 M0 (proj1 Ok0)) in H.
    apply f_inn in H. apply (inn_trip o) in H; [|apply f_len]. apply H.
  - intros H. destruct (mem_inn M f x f_len H) as (a & b & c & Hi & _ & Ex). exists (a, b, c). split; [symmetry; auto|].
    apply (actions_of_ppgfun_spec M t0 M0 (proj1 Ok0)). apply f_inn. auto.
Qed.

Lemma given_nodup : NoDup (map idof (given_acts o)).
Proof.
  pose proof given_range as HR. assert (HN : NoDup (given_acts o)) by (rewrite Giv; apply actions_of_ppgfun_NoDup; auto).
  revert HR HN. generalize (given_acts o). induction l as [|x l IH]; intros HR HN; [constructor|].
  inversion HR; subst. inversion HN; subst. cbn [map]. constructor; [|auto]. intros H. apply in_map_iff in H.
  destruct H as (y & E & Hy). rewrite Forall_forall in H2. specialize (H2 y Hy).
  destruct x as [[a b] c], y as [[a' b'] c']. cbn [idof inrange] in *. apply id3_inj in E; try tauto.
  destruct E as (-> & -> & ->). auto.
Qed.

Lemma start_avail : avail (none o) (start_candidates o).
Proof.
  split; [apply start_length; auto|]. intros x. rewrite start_spec by auto. split.
  - intros [H1 H2]. split; [auto|]. split; [auto|]. split; [apply mem_wipe|]. intros y Hy. elim (mem_wipe _ _ Hy).
  - tauto.
Qed.

Lemma f_zero : ~ mem f 0. Proof. apply (zero_out o M0 f f_len f_adm). Qed.

Lemma f_ids : 2 <= M /\
  (mem f (id_of3 0 0 1 M) \/
   (~ mem f (id_of3 0 0 1 M) /\ mem f (id_of3 0 1 0 M) /\ forall x, mem f x -> ~ aab o x) \/
   (3 <= M /\ ~ mem f (id_of3 0 0 1 M) /\ ~ mem f (id_of3 0 1 0 M) /\ mem f (id_of3 0 1 2 M) /\
    (forall x, mem f x -> ~ aab o x) /\ (forall x, mem f x -> ~ aba o x))).
Proof.
  destruct (kinds o f f_len) as [K1 K2].
  assert (R : forall a b c, inn f a b c -> b < M /\ c < M) by (intros a b c (H1 & H2 & H3 & _); auto).
  assert (T : forall a b c, inn f a b c <-> a < M /\ b < M /\ c < M /\ mem f (id_of3 a b c M)).
  { intros a b c. rewrite inn_mem by (auto using f_len). tauto. }
  destruct f_starts as [H|[[H1 H2]|(H1 & H2 & H3)]].
  - destruct (R _ _ _ H). split; [lia|]. left. apply T in H. tauto.
  - destruct (R _ _ _ H2). split; [lia|]. right. left. split; [|split; [apply T in H2; tauto|apply K1; auto]].
    intros Q. apply (H1 0 1). apply T. repeat split; auto; lia.
  - destruct (R _ _ _ H3). split; [lia|]. right. right. split; [lia|]. split; [|split; [|split; [|split; [apply K1; auto|apply K2; auto]]]].
    + intros Q. apply (H1 0 1). apply T. repeat split; auto; lia.
    + intros Q. apply (H2 0 1). apply T. repeat split; auto; lia.
    + apply T in H3; tauto.
Qed.

(** Conditions on the candidates above the highest given action. *)
Definition rem (cc c' : list bool) : Prop :=
  length cc = N /\ sub cc c' /\
  forall x, mem cc x <-> mem c' x /\ (~ mem f (id_of3 0 0 1 M) -> ~ aab o x) /\
     (~ mem f (id_of3 0 0 1 M) -> ~ mem f (id_of3 0 1 0 M) -> ~ aba o x).

Lemma seg_starts : forall h c' cc s, mem f h -> (forall y, mem f y -> y <= h) -> avail f c' ->
  rem cc (clear_below h c') -> good o s -> (forall x, x <= h -> (mem s x <-> mem f x)) ->
  ((forall x, h < x -> mem s x -> mem cc x) <-> starts (inn s)).
Proof.
  intros h c' cc s Hh Hmax [Lc' Hav] (Lcc & Hsub & Hrem) G Hseg. pose proof G as (L & HA & _).
  destruct (kinds o s L) as [K1 K2]. destruct f_ids as [M2 FI].
  assert (Hc : forall x, mem (clear_below h c') x <-> mem c' x /\ h <= x).
  { intros x. unfold clear_below. rewrite mem_clears, in_seq. split; intros [H1 H2]; (split; [auto|lia]). }
  assert (Hpos : 1 <= h). { destruct h; [elim f_zero; auto|lia]. }
  assert (E1 : id_of3 0 0 1 M = 1) by (unfold id_of3, id_of2; lia).
  assert (E2 : id_of3 0 1 0 M = M) by (unfold id_of3, id_of2; lia).
  assert (T : forall a b c, inn s a b c <-> a < M /\ b < M /\ c < M /\ mem s (id_of3 a b c M)).
  { intros a b c. rewrite inn_mem by auto. tauto. }
  split.
  - intros H.
    assert (All : forall x, mem s x -> mem f x \/ mem cc x).
    { intros x Hx. destruct (Nat.le_gt_cases x h); [left; apply Hseg; auto|right; auto]. }
    destruct FI as [F1|[(F1 & F2 & F3)|(M3 & F1 & F2 & F3 & F4 & F5)]].
    + left. apply T. repeat split; try lia. apply Hseg; [apply Hmax; auto|auto].
    + right. left. split.
      * apply K1. intros x Hx. apply All in Hx. destruct Hx as [Hx|Hx]; [auto|]. apply Hrem in Hx. tauto.
      * apply T. repeat split; try lia. apply Hseg; [apply Hmax; auto|auto].
    + right. right. split; [|split].
      * apply K1. intros x Hx. apply All in Hx. destruct Hx as [Hx|Hx]; [auto|]. apply Hrem in Hx. tauto.
      * apply K2. intros x Hx. apply All in Hx. destruct Hx as [Hx|Hx]; [auto|]. apply Hrem in Hx. tauto.
      * apply T. repeat split; try lia. apply Hseg; [apply Hmax; auto|auto].
  - intros HS x Hx Hm. apply Hrem. split; [apply Hc; split; [|lia]; apply Hav|].
    + split; [apply mem_lt in Hm; lia|]. split; [apply (adm_based o s); auto|]. split.
      * intros H. apply Hmax in H. lia.
      * intros y Hy. pose proof (Hmax y Hy). apply (adm_conf o s); auto; [apply Hseg; auto|lia].
    + assert (S1 : ~ mem f (id_of3 0 0 1 M) -> ~ inn s 0 0 1).
      { intros H Q. apply H. apply T in Q. apply Hseg; [lia|tauto]. }
      split.
      * intros H. apply S1 in H. destruct HS as [HS|[HS|HS]]; [tauto| |]; apply K1; tauto.
      * intros H H'. destruct FI as [F1|[(F1 & F2 & F3)|(M3 & F1 & F2 & F3 & F4 & F5)]]; [tauto|tauto|].
        assert (Hh3 : id_of3 0 1 2 M <= h) by auto. unfold id_of3, id_of2 in Hh3.
        assert (S2 : ~ inn s 0 1 0). { intros Q. apply H'. apply T in Q. apply Hseg; [lia|tauto]. }
        apply S1 in H. destruct HS as [HS|[HS|HS]]; [tauto|tauto|]. apply K2; tauto.
Qed.

Definition given_post (p fr' : list (list nat)) : Prop :=
  NoDup p /\
  (forall t, In t p -> hard o t /\ starts (table_protocol M t) /\ extends M t0 t /\
     (trust_given o = true -> t <> t0) /\ ~ cut_off M (size M t0) (max_depth o) (dfs_threshold o) t) /\
  (exact o -> forall t, hard o t -> starts (table_protocol M t) -> extends M t0 t ->
     (trust_given o = true -> t <> t0) ->
     ~ cut_off M (size M t0) (max_depth o) (dfs_threshold o) t -> In t p).

Lemma run_from : forall h c' cc, mem f h -> (forall y, mem f y -> y <= h) -> avail f c' ->
  rem cc (clear_below h c') ->
  exists anc p fr', recurse N o (upd f h false) 1 [upd cc h true] h = Some (anc, p, fr') /\ given_post p fr'.
Proof.
  intros h c' cc Hh Hmax Hav Hrem. pose proof f_len as Lf. pose proof (mem_lt _ _ Hh) as Lh.
  pose proof Hav as [Lc' Hav']. pose proof Hrem as (Lcc & Hsub & _).
  assert (Eu : upd (upd f h false) h true = f).
  { apply set_ext; [rewrite !upd_length; auto|]. intros x. rewrite mem_set, mem_clear, upd_length. split.
    - intros [[H _]|[-> _]]; auto.
    - intros H. destruct (Nat.eq_dec x h) as [->|]; auto. }
  assert (Hmc : forall x, mem (upd cc h true) x -> x = h \/ mem c' x /\ h < x).
  { intros x Hx. apply mem_set in Hx. destruct Hx as [Hx|[-> _]]; [|auto]. apply Hsub in Hx.
    unfold clear_below in Hx. rewrite mem_clears, in_seq in Hx. destruct (Nat.eq_dec x h); [auto|right]. split; [tauto|lia]. }
  assert (Ld : length (upd f h false) = N) by (rewrite upd_length; auto).
  assert (Lc : length (upd cc h true) = N) by (rewrite upd_length; auto).
  assert (HN : node o h (upd f h false) (upd cc h true) [] h 1).
  { constructor.
    - split; [|split; [constructor|exact I]]. split; [auto|]. split; [auto|]. cbn [fst snd]. intros x Hx Hd.
      apply mem_clear in Hd. apply Hmc in Hx. destruct Hx as [Hx|[Hx _]]; [tauto|]. apply Hav' in Hx. tauto.
    - apply mem_set. right. split; [auto|lia].
    - intros y Hy. apply mem_clear in Hy. destruct Hy as [Hy Hn]. apply Hmax in Hy. lia.
    - intros x Hx. apply Hmc in Hx. destruct Hx as [->|[Hx _]].
      + split; [apply (adm_based o f); auto; apply f_adm|]. intros y Hy. apply mem_clear in Hy. destruct Hy as [Hy Hn].
        apply (adm_conf o f); auto. apply f_adm.
      + apply Hav' in Hx. split; [tauto|]. intros y Hy. apply mem_clear in Hy. apply Hx. tauto.
    - apply (admissible_sub nw _ (inn f)); [|apply f_adm]. intros a b c H. pose proof H as (Ha & Hb & Hc & _).
      apply (inn_trip o) in H; auto. destruct H as [H _]. apply mem_clear in H. apply (mem_id o); auto. tauto.
    - lia.
    - unfold cnt, cntp. rewrite Nat.sub_diag. reflexivity.
    - lia. }
  destruct (recurse_spec o M0 h N (upd f h false) (upd cc h true) [] h 1 HN ltac:(lia)) as (l2 & p & fr' & E & _ & _ & HP).
  cbn [map snd] in E. exists (map snd l2), p, fr'. split; [exact E|].
  rewrite Eu in HP. destruct HP as (A1 & A2 & A3 & _ & _). unfold ncond in A2, A3. rewrite Eu in A2, A3.
  assert (CS : forall s, good o s -> (cset f (upd cc h true) (h + 1) s <-> extends M t0 (tab o s) /\ starts (table_protocol M (tab o s)))).
  { intros s G. destruct (good_det o s G) as [L D]. pose proof (tab_spec M M0 s L D) as [Ok HT].
    rewrite (starts_iff (table_protocol M (tab o s)) (inn s)) by (intros; apply HT).
    rewrite <- f_tab, (extends_seg o M0 f s h) by (auto using f_det). split.
    - intros [H1 H2]. assert (Hs : forall x, x <= h -> (mem s x <-> mem f x)) by (intros x Hx; apply H1; lia).
      split; [auto|]. apply (seg_starts h c' cc s); auto. intros x Hx Hm. apply H2 in Hm; [|lia].
      apply mem_set in Hm. destruct Hm as [Hm|[-> _]]; [auto|lia].
    - intros [H1 H2]. split; [intros x Hx; apply H1; lia|]. intros x Hx Hm. apply mem_set. left.
      apply (seg_starts h c' cc s); auto. lia. }
  assert (UP : forall s, good o s -> extends M t0 (tab o s) -> mem s h /\ upto M (tab o s) (pos o h) = size M t0).
  { intros s G HX. destruct (good_det o s G) as [L D]. rewrite <- f_tab in HX. pose proof HX as HX'.
    rewrite (extends_seg o M0 f s h) in HX by (auto using f_det). split; [apply HX; auto|].
    pose proof (pos_lt o M0 h ltac:(lia)) as Ph. rewrite upto_cntp by auto.
    assert (ES : size M t0 = cntp M t0 0 (M * M)).
    { unfold size, positions, cntp. rewrite Nat.sub_0_r. reflexivity. }
    rewrite ES, <- f_tab, (cntp_split M _ 0 (S (pos o h)) (M * M)) by lia.
    rewrite (cntp_zero M _ (S (pos o h)) (M * M)).
    2:{ intros q Hq Ho. apply (tab_occ o M0) in Ho; auto using f_det; [|lia]. destruct Ho as (v & Hv & Hm). apply Hmax in Hm.
        apply (pos_mono o M0) in Hm. rewrite pos_of in Hm by auto. lia. }
    rewrite Nat.add_0_r. apply cntp_ext. intros q Hq.
    destruct HX' as (k & HK). 
    assert (Hk : pos o h < k).
    { destruct (Nat.lt_ge_cases (pos o h) k) as [|Hge]; [auto|]. destruct (HK (pos o h) Ph) as [_ H1]. specialize (H1 Hge).
      assert (nth (pos o h) (tab o f) M < M); [|lia]. apply (tab_occ o M0); auto using f_det. exists (h mod M).
      destruct (pos_eq o M0 h) as [Ep R]. rewrite <- Ep. auto. }
    destruct (HK q ltac:(lia)) as [H1 _]. rewrite H1 by lia. tauto. }
  split; [auto|]. split.
  - intros t Ht. apply A2 in Ht. destruct Ht as (s & <- & G & [C1 C2] & St). apply CS in C1; auto. destruct C1 as [C1 C1'].
    destruct (UP s G C1) as [U1 U2]. destruct (good_det o s G) as [L D].
    split; [apply hard_good; auto|]. split; [auto|]. split; [auto|]. split.
    + intros HT Et. apply C2; auto. apply (tab_inj o M0); auto using f_det. rewrite f_tab. auto.
    + apply (no_stops o M0 s h); auto.
  - intros He t Hh' Hs HX Ht Hn. destruct (good_hard o M0 t Hh') as [G Et]. rewrite <- Et. apply A3; auto.
    + split; [apply CS; auto; rewrite Et; auto|]. intros _ HT Q. apply Ht; auto. rewrite <- Et, Q. apply f_tab.
    + destruct (UP (set_of o t) G) as [U1 U2]; [rewrite Et; auto|]. apply (no_stops o M0 (set_of o t) h (size M t0)); auto.
      * apply (good_det o); auto. * apply (good_det o); auto. * rewrite Et. auto.
Qed.

Theorem given_spec : exists p fr', searchit o = Some (p, fr') /\ given_post p fr'.
Proof.
  destruct f_ids as [M2 FI].
  destruct (take_spec (given_acts o) (none o) (start_candidates o) 0 f) as (c' & h & E & Hav & _ & Hmax & Hin).
  { apply repeat_length. } { apply start_avail. } { apply given_range. } { apply given_nodup. }
  { intros x _. apply mem_wipe. } { apply f_len. } { apply f_adm. }
  { intros x. rewrite given_ids. split; [auto|]. intros [H|H]; [elim (mem_wipe _ _ H)|auto]. }
  assert (Hmax' : forall y, mem f y -> y <= h) by (intros y Hy; apply Hmax; apply given_ids; auto).
  assert (Hh : mem f h).
  { destruct Hin as [->|H]; [|apply given_ids; auto]. exfalso.
    assert (Q : exists x, mem f x) by (destruct FI as [F|[(_ & F & _)|(_ & _ & _ & F & _)]]; eauto).
    destruct Q as (x & Hx). pose proof (Hmax' x Hx). assert (x = 0) by lia. subst x. apply f_zero. auto. }
  assert (Ne : exists x l, given_acts o = x :: l).
  { pose proof (proj2 (given_ids h) Hh) as Hg. revert Hg. case (given_acts o); [intros []|eauto]. }
  destruct Ne as (x & l & Ne). unfold searchit. rewrite Ne. unfold search_given. fold (none o). rewrite E.
  fold (tab o f). rewrite f_tab.
  assert (Ecan : negb (trust_given o) && negb (canonical_ck t0 M) = false).
  { destruct (trust_given o) eqn:Et; [reflexivity|]. rewrite Ca0 by auto. reflexivity. }
  rewrite Ecan. cbv zeta.
  assert (Hcl : length (clear_below h c') = N).
  { unfold clear_below. rewrite fold_clear_length. apply Hav. }
  assert (Hhas : forall a b c, a < M -> b < M -> c < M -> has M f a b c = Some (nth (id_of3 a b c M) f false)).
  { intros a b c Ha Hb Hc. unfold has. rewrite !(proj2 (Nat.ltb_lt _ _)) by auto. reflexivity. }
  assert (Done : forall cc, rem cc (clear_below h c') ->
    exists p fr', match recurse N o (upd f h false) 1 [upd cc h true] h with
                  | None => None | Some (_, p, f0) => Some (p, f0) end = Some (p, fr') /\ given_post p fr').
  { intros cc Hrem. destruct (run_from h c' cc Hh Hmax' Hav Hrem) as (anc & p & fr' & Er & HP). rewrite Er. eauto. }
  rewrite (Hhas 0 0 1) by lia. destruct (nth (id_of3 0 0 1 M) f false) eqn:B1.
  { apply Done. split; [auto|]. split; [intros y Hy; auto|]. intros y. unfold mem at 3 4 5. rewrite B1. intuition congruence. }
  assert (LA : length (remove_AAB M (clear_below h c')) = N) by (unfold remove_AAB; rewrite (remove_length o); auto).
  rewrite (Hhas 0 1 0) by lia. destruct (nth (id_of3 0 1 0 M) f false) eqn:B2.
  { apply Done. split; [auto|]. split.
    - intros y Hy. apply (remove_AAB_spec o M0) in Hy; auto. tauto.
    - intros y. rewrite (remove_AAB_spec o M0) by auto. unfold mem at 3 4 5. rewrite B1, B2. intuition congruence. }
  assert (LB : length (remove_ABA M (remove_AAB M (clear_below h c'))) = N) by (unfold remove_ABA; rewrite (remove_length o); auto).
  destruct FI as [F|[(_ & F & _)|(M3 & _ & _ & F & _)]]; [unfold mem in F; congruence|unfold mem in F; congruence|].
  rewrite (Hhas 0 1 2) by lia. unfold mem in F. rewrite F.
  apply Done. split; [auto|]. split.
  - intros y Hy. apply (remove_ABA_spec o M0) in Hy; auto. destruct Hy as [Hy _]. apply (remove_AAB_spec o M0) in Hy; auto. tauto.
  - intros y. rewrite (remove_ABA_spec o M0), (remove_AAB_spec o M0) by auto. unfold mem at 3 4 5. rewrite B1, B2. intuition congruence.
Qed.
End Run.
End Given.
