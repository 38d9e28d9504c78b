(** The recursive search: exactly which protocols are printed below a node (continued). *)
From Coq Require Import List Arith Lia Bool.
From Verif Require Import FinLib UniModel UniSpec UniProofs LivelockModel LivelockSpec LivelockProofs
  TileModel TileSpec TileProofs TileProofs2 CanonModel CanonSpec CanonProofs
  GenModel GenSpec GenProofs GenProofs2 GenProofs3 GenProofs4 GenProofs5 GenProofs6.
Import ListNotations.

Lemma more_dec : forall s lo, (exists x, lo <= x /\ mem s x) \/ (forall x, lo <= x -> ~ mem s x).
Proof.
  intros s lo. destruct (existsb (fun x => nth x s false) (seq lo (length s - lo))) eqn:E.
  - left. apply existsb_exists in E. destruct E as (x & Hx & H). apply in_seq in Hx. exists x. split; [lia|auto].
  - right. intros x Hx H. pose proof (mem_lt _ _ H). assert (Q : existsb (fun x => nth x s false) (seq lo (length s - lo)) = true).
    { apply existsb_exists. exists x. split; [apply in_seq; lia|auto]. } congruence.
Qed.

Lemma NoDup_app_disj : forall (A : Type) (l1 l2 : list A), NoDup l1 -> NoDup l2 ->
  (forall x, In x l1 -> ~ In x l2) -> NoDup (l1 ++ l2).
Proof.
  intros A l1 l2 H1 H2 D. induction l1 as [|x l1 IH]; [auto|]. inversion H1; subst. simpl. constructor.
  - rewrite in_app_iff. intros [H|H]; [auto|]. apply (D x); [left|]; auto.
  - apply IH; auto. intros t Ht. apply D. right. auto.
Qed.

Section Search.
Variable o : SearchOpt.
Notation M := (domsz o).
Notation N := (domsz o * domsz o * domsz o).
Notation inn := (in_set (domsz o)).
Notation nw := (nw_disabling o).
Hypothesis M0 : M <> 0.
Variable hi : nat.

Section Node.
Variables (d c : list bool) (l : list level) (act depth : nat).
Hypothesis HN : node o hi d c l act depth.

Let D' := upd d act true.
Let cand := newc o c act.

Lemma nd_lc : length c = N /\ length d = N /\ act < N.
Proof.
  destruct HN as [((H1 & H2 & _) & _) H3 _ _ _ _ _ _]. cbn [fst snd] in *. apply mem_lt in H3. lia.
Qed.

Lemma nd_len : length D' = N. Proof. unfold D'. rewrite upd_length. apply nd_lc. Qed.
Lemma nd_lcand : length cand = N. Proof. apply newc_length. apply nd_lc. Qed.
Lemma nd_adm : admissible nw (inn D').
Proof. apply (adm_add o M0 d c act); try apply nd_lc; apply HN. Qed.
Lemma nd_det : deterministic (inn D'). Proof. apply nd_adm. Qed.
Lemma nd_mem : forall x, mem D' x <-> mem d x \/ x = act.
Proof. intros x. unfold D'. rewrite mem_set. pose proof nd_lc as HH. split; [tauto|]. intros [H|H]; [auto|right]. split; [auto|lia]. Qed.
Lemma nd_act : mem D' act. Proof. apply nd_mem. auto. Qed.
Lemma nd_max : forall y, mem D' y -> y <= act.
Proof. intros y H. apply nd_mem in H. destruct H as [H| ->]; [|auto]. apply (n_lt _ _ _ _ _ _ _ HN) in H. lia. Qed.
Lemma nd_tab : table_ok M (tab o D') /\ forall a b c, table_protocol M (tab o D') a b c <-> inn D' a b c.
Proof. apply tab_spec; auto; [apply nd_len|apply nd_det]. Qed.
Lemma nd_tadm : admissible nw (table_protocol M (tab o D')).
Proof. apply (admissible_sub nw _ (inn D')); [|apply nd_adm]. intros a b e. apply nd_tab. Qed.

(** A set that continues the node only has remaining candidates. *)
Lemma nd_cand : forall s, length s = N -> admissible nw (inn s) -> cset D' c (act + 1) s ->
  forall x, mem s x -> mem D' x \/ act < x /\ mem cand x.
Proof.
  intros s L HA [H1 H2] x Hx. destruct (Nat.le_gt_cases x act); [left; apply H1; auto; lia|].
  right. split; auto. unfold cand. apply newc_spec; auto; try apply nd_lc.
  split; [apply H2; auto; lia|]. split; [lia|]. apply (adm_conf o s act x); auto; [|lia].
  apply H1; [lia|apply nd_act].
Qed.

Definition skip : Prop := depth = 1 /\ trust_given o = true.

Lemma nd_seg_prefix : forall s, length s = N -> deterministic (inn s) -> cset D' c (act + 1) s ->
  forall i, i < M * M -> (i < S (pos o act) -> nth i (tab o D') M = nth i (tab o s) M) /\
    (S (pos o act) <= i -> nth i (tab o D') M = M).
Proof.
  intros s L Ds [H1 H2] i Hi. destruct nd_lc as (Lc & Ld & Hlt).
  assert (Hsa : mem s act) by (apply H1; [lia|apply nd_act]).
  assert (Hseg : forall v, v < M -> i <= pos o act -> (mem s (i * M + v) <-> mem D' (i * M + v))).
  { intros v Hv Hip. destruct (Nat.le_gt_cases (i * M + v) act); [apply H1; lia|]. split; intros H0.
    - assert (E : i * M + v = act).
      { apply (det_pos o M0 s); auto. rewrite pos_of by auto.
        pose proof (pos_mono o M0 act (i * M + v) ltac:(lia)) as Q. rewrite pos_of in Q by auto. lia. }
      lia.
    - apply nd_max in H0. lia. }
  split; intros Hip.
  - assert (Hip' : i <= pos o act) by lia.
    pose proof (nth_le M (tab o s) i (proj1 (tab_spec M M0 s L Ds))) as Q.
    destruct (Nat.eq_dec (nth i (tab o s) M) M) as [E|E].
    + rewrite E. apply tab_none; auto; [apply nd_len|apply nd_det|]. intros v Hv Hm. apply Hseg in Hm; auto.
      apply tab_mem in Hm; auto. lia.
    + apply tab_mem; auto; [apply nd_len|apply nd_det|lia|]. apply Hseg; auto; [lia|].
      apply tab_mem; auto; lia.
  - apply tab_none; auto; [apply nd_len|apply nd_det|]. intros v Hv Hm. apply nd_max in Hm.
    apply (pos_mono o M0) in Hm. rewrite pos_of in Hm by auto. lia.
Qed.

Lemma nd_canon : forall s, length s = N -> deterministic (inn s) -> cset D' c (act + 1) s ->
  canonical_ck (tab o s) M = true -> canonical_ck (tab o D') M = true.
Proof.
  intros s L Ds HC H. apply (canonical_prefix M ltac:(lia) (tab o D') (tab o s)) with (k := S (pos o act)); auto.
  - apply nd_tab.
  - apply tab_spec; auto.
  - apply nd_seg_prefix; auto.
Qed.

Lemma check_spec : exists l2 r,
  check_node o D' (tab o D') cand (map snd ((d, c) :: l)) depth = Some (map snd l2, r) /\
  Forall2 (shr (kept o)) ((d, c) :: l) l2 /\ chain_ok N l2 /\
  match r with
  | None => forall s, kept o s -> cset D' c (act + 1) s -> skip \/ False
  | Some pr => l2 = (d, c) :: l /\ (pr = true <-> good o D' /\ ~ skip) /\
      (trust_given o = false -> canonical_ck (tab o D') M = true)
  end /\ (skip -> r = Some false).
Proof.
  unfold check_node. pose proof nd_lc as (Lc & Ld & Hlt).
  pose proof (n_chain _ _ _ _ _ _ _ HN) as HC.
  destruct ((depth =? 1) && trust_given o) eqn:Esk.
  { apply andb_prop in Esk. destruct Esk as [E1 E2]. apply Nat.eqb_eq in E1.
    exists ((d, c) :: l), (Some false). split; [reflexivity|]. split; [apply shrs_refl|]. split; [auto|].
    split; [|auto]. split; [auto|]. unfold skip. split; [split; [discriminate|tauto]|congruence]. }
  assert (Hsk : ~ skip).
  { intros [E1 E2]. rewrite E1, E2 in Esk. discriminate. }
  pose proof (leads_spec o M0 D' nd_len nd_det cand nd_lcand) as HL. fold (tab o D') in HL.
  destruct nd_tab as [Ok HT].
  assert (Hsubt : forall s ids, length s = N -> deterministic (inn s) -> (forall y, In y ids -> mem s y) ->
            forall a b e, a < M -> b < M -> e < M -> In (id_of3 a b e M) ids -> table_protocol M (tab o s) a b e).
  { intros s ids L Ds H a b e Ha Hb He Hi. apply (proj2 (tab_spec M M0 s L Ds)). apply mem_id; auto. }
  destruct (periodic_leads_semick o D' (tab o D') cand) as [[ids|]|m|].
  - (* livelock found *)
    assert (Hids : (forall i, In i ids -> mem D' i) /\ two ids /\
              (exact o -> forall s, good o s -> ~ (forall y, In y ids -> mem s y))).
    { destruct HL as [(row & col & E1 & E2)|(Hlt' & acts & cs & E1 & E2)].
      - pose proof (proj1 (livelock_semick_yes (max_period o) (tab o D') M row col Ok E1)) as HB.
        destruct (livelock_ppgs_spec (tab o D') M row col Ok HB) as (ids' & E3 & E4 & _).
        rewrite E2 in E3. injection E3 as <-. split; [|split].
        + intros i Hi. destruct (E4 i Hi) as (a & b & e & Hp & ->). apply HT in Hp. apply (inn_trip o D'); auto. apply nd_len.
        + eapply semick_two; eauto. apply nd_tadm.
        + intros _ s Hg Hs. destruct Hg as (L & (Ds & _) & _ & Hm & _).
          apply (block_carries (tab o D') (tab o s) M (max_period o) row col ids); auto.
          * apply tab_spec; auto.
          * apply (Hsubt s ids); auto.
      - assert (E1' : closed_chain (table_protocol M (tab o D')) acts cs).
        { destruct E1 as (A1 & A2 & A3). split; [auto|]. split; [auto|]. intros j Hj.
          destruct (A3 j Hj) as [B1 B2]. split; [apply HT; auto|auto]. }
        split; [|split].
        + intros i Hi. destruct (guided_sound (tab o D') M Ok acts (max_propagations o) ids cs E1' E2) as [_ F].
          rewrite Forall_forall in F. specialize (F i Hi). destruct F as (a & b & e & Hp & ->).
          apply HT in Hp. apply (inn_trip o D'); auto. apply nd_len.
        + eapply guided_two; eauto. apply nd_tadm.
        + unfold exact. lia. }
    destruct Hids as (I1 & I2 & I3).
    destruct (prune_spec N (kept o) act d c l ids) as (l2 & E & HS & HC2); auto; try apply HN.
    + apply (zero_out o M0 D'); [apply nd_len|apply nd_adm].
    + intros s [He Hg]. auto.
    + exists l2, None. rewrite E. split; [reflexivity|]. split; [auto|]. split; [auto|]. split; [|tauto].
      intros s [He Hg] [H1 _]. right. apply (I3 He s Hg). intros y Hy. apply I1 in Hy. apply H1; auto.
      apply nd_max in Hy. lia.
  - (* an action that cannot recur *)
    exists ((d, c) :: l), None. split; [reflexivity|]. split; [apply shrs_refl|]. split; [auto|].
    split; [|tauto]. intros s [He Hg] Hcs. right. destruct HL as (a & b & e & Hi & Hr). apply Hr.
    pose proof Hg as (L & HA & _ & _ & Hrec).
    apply (recurs_mono (inn s)).
    + intros x y z Hxyz. apply (inn_trip o s) in Hxyz; auto. destruct Hxyz as [Hm Ht].
      apply (nd_cand s L HA Hcs) in Hm.
      assert (Hr3 : x < M /\ y < M /\ z < M).
      { destruct (trip_pos o M0 (id_of3 x y z M) x y z) as (_ & R); [|auto|tauto].
        destruct Hm as [Hm|[_ Hm]]; apply mem_lt in Hm; [rewrite nd_len in Hm|rewrite nd_lcand in Hm]; auto. }
      apply (mem_id o); try tauto; [rewrite union_length; [apply nd_len|rewrite nd_len, nd_lcand; auto]|].
      apply mem_union; [rewrite nd_len, nd_lcand; auto|]. tauto.
    + apply (Hrec a b e). apply (inn_trip o D') in Hi; [|apply nd_len]. destruct Hi as [Hi Ht].
      pose proof (trip_pos o M0 _ a b e ltac:(apply mem_lt in Hi; rewrite nd_len in Hi; exact Hi) Ht) as (_ & R1 & R2 & R3 & _).
      apply (mem_id o); auto. apply Hcs; auto. apply nd_max in Hi. lia.
  - (* go on *)
    destruct (canonical_ck (tab o D') M) eqn:Ecan.
    + exists ((d, c) :: l), (Some m). split; [reflexivity|]. split; [apply shrs_refl|]. split; [auto|].
      split; [|tauto]. split; [auto|]. split; [|auto]. unfold good. fold (tab o D') in HL.
      rewrite HL. split.
      * intros [H1 H2]. split; [|auto]. split; [apply nd_len|]. split; [apply nd_adm|]. auto.
      * intros [(_ & _ & _ & H1 & H2) _]. auto.
    + exists ((d, c) :: l), None. split; [reflexivity|]. split; [apply shrs_refl|]. split; [auto|].
      split; [|tauto]. intros s [He Hg] Hcs. right. destruct Hg as (L & (Ds & _) & Hcan & _).
      apply (nd_canon s L Ds Hcs) in Hcan. congruence.
  - exfalso. destruct HL as (row & col & E1 & E2).
    pose proof (proj1 (livelock_semick_yes (max_period o) (tab o D') M row col Ok E1)) as HB.
    destruct (livelock_ppgs_spec (tab o D') M row col Ok HB) as (ids' & E3 & _). congruence.
Qed.

Lemma limit_iff : at_limit o act depth = true <-> depth = max_depth o /\ far o act.
Proof.
  unfold at_limit, far. destruct (uniact_of_id act M) as [[a b] e] eqn:E.
  destruct (trip_pos o M0 act a b e ltac:(apply nd_lc) E) as (-> & _).
  rewrite andb_true_iff, Nat.eqb_eq, negb_true_iff, Nat.leb_gt. tauto.
Qed.

Lemma nd_cnt : forall s, length s = N -> deterministic (inn s) -> cset D' c (act + 1) s ->
  cnt o hi s act = depth.
Proof.
  intros s L Ds [H1 _]. rewrite (n_depth _ _ _ _ _ _ _ HN). apply cnt_seg; auto.
  - apply nd_len. - apply nd_det. - apply nd_act. - apply nd_max.
  - intros x Hx. apply H1. lia.
Qed.

Lemma nd_self : cset D' c (act + 1) D'.
Proof. split; [tauto|]. intros x Hx H. apply nd_max in H. lia. Qed.

Lemma nd_eq : forall s, length s = N -> cset D' c (act + 1) s -> (forall x, act < x -> ~ mem s x) -> s = D'.
Proof.
  intros s L [H1 _] H. apply set_ext; [rewrite nd_len; auto|]. intros x.
  destruct (Nat.le_gt_cases x act) as [Hx|Hx]; [apply H1; lia|].
  split; intros Hm; exfalso; [apply (H x); auto|apply nd_max in Hm; lia].
Qed.

Lemma nd_nostop : forall x, act <= x -> ~ stops o hi D' x.
Proof. intros x Hx (_ & _ & _ & z & Hz & Hlt). apply nd_max in Hz. lia. Qed.
End Node.

Lemma recurse_spec : forall fuel d c l act depth, node o hi d c l act depth -> N - act <= fuel ->
  exists l2 p f, recurse fuel o d depth (map snd ((d, c) :: l)) act = Some (map snd l2, p, f) /\
    Forall2 (shr (kept o)) ((d, c) :: l) l2 /\ chain_ok N l2 /\
    post o hi act (ncond o d c act depth) (cset (upd d act true) c (act + 1)) p f.
Proof.
  induction fuel; intros d c l act depth HN Hf.
  { exfalso. pose proof (nd_lc d c l act depth HN). lia. }
  pose proof (nd_lc d c l act depth HN) as (Lc & Ld & Hlt).
  pose proof (nd_len d c l act depth HN) as LD.
  cbn [recurse]. rewrite (proj2 (Nat.leb_le depth (M * M))).
  2:{ pose proof (n_small _ _ _ _ _ _ _ HN). pose proof (pos_lt o M0 act Hlt). lia. }
  cbn [negb]. cbn [map hd snd].
  assert (Ea : nth act c false = true) by apply HN. rewrite Ea. cbn [negb].
  fold (newc o c act). fold (tab o (upd d act true)).
  destruct (check_spec d c l act depth HN) as (l2 & r & E & HS & HC & HR & Hskip).
  cbn [map snd] in E. rewrite E. destruct r as [pr|].
  2:{ exists l2, [], []. split; [reflexivity|]. split; [auto|]. split; [auto|].
      assert (No : exact o -> forall s, good o s -> ~ ncond o d c act depth s).
      { intros He s Hg [Hcs _]. destruct (HR s (conj He Hg) Hcs) as [Hs|[]]. apply Hskip in Hs. discriminate. }
      split; [constructor|]. split; [easy|]. split; [|split; [easy|]].
      - intros He s Hg Hc. exfalso. apply (No He s); auto.
      - intros He _ s x Hg Hc. exfalso. apply (No He s); auto. }
  destruct HR as (El2 & Hpr & Hcan). subst l2.
  assert (Hncs : ncond o d c act depth (upd d act true) \/ skip depth).
  { destruct (Nat.eq_dec depth 1) as [E1|E1]; destruct (trust_given o) eqn:E2; unfold skip;
      [right; auto|left|left|left]; (split; [eapply nd_self; eauto|]; try congruence; try lia). }
  (* the node itself *)
  assert (Own : forall t, In t (if pr then [tab o (upd d act true)] else []) <->
     t = tab o (upd d act true) /\ good o (upd d act true) /\ ~ skip depth).
  { intros t. destruct pr; simpl.
    - split; [|intros [H _]; auto]. intros [H|[]]. split; [auto|]. apply Hpr. reflexivity.
    - split; [easy|]. intros [_ H]. apply Hpr in H. discriminate. }
  assert (OwnND : NoDup (if pr then [tab o (upd d act true)] else [])).
  { destruct pr; repeat constructor. simpl. tauto. }
  destruct (at_limit o act depth) eqn:El.
  - apply (limit_iff d c l act depth HN) in El. destruct El as [El1 El2].
    eexists ((d, c) :: l), _, _. split; [reflexivity|]. split; [apply shrs_refl|]. split; [apply HN|].
    split; [auto|]. split; [|split; [|split]].
    + intros t Ht. apply Own in Ht. destruct Ht as (-> & Hg & Hs). exists (upd d act true).
      split; [auto|]. split; [auto|]. split; [tauto|]. eapply nd_nostop; eauto.
    + intros He s Hg [Hcs Hne] Hst. pose proof (good_det o s Hg) as [Ls Ds].
      assert (Es : s = upd d act true).
      { apply (nd_eq d c l act depth HN s Ls Hcs). intros x Hx Hm. apply (Hst act); auto.
        split; [|split; [auto|split]].
        - apply Hcs; [lia|]. eapply nd_act; eauto.
        - rewrite <- El1. eapply nd_cnt; eauto.
        - exists x. auto. }
      apply Own. subst s. split; [auto|]. split; [auto|]. intros [H1 H2]. apply Hne; auto.
    + intros t Ht. destruct (bfs o) eqn:Eb; [|destruct Ht]. destruct Ht as [<-|[]].
      exists (upd d act true). split; [auto|]. split; [|eapply nd_self; eauto].
      split; [auto|]. split; [auto|]. split; [eapply nd_adm; eauto|]. split; [auto|].
      exists act. split; [eapply nd_act; eauto|]. split; [eapply nd_max; eauto|]. split; [apply HN|].
      split; [auto|]. rewrite <- El1. symmetry. apply HN.
    + intros He Hb s x Hg [Hcs Hne] Hx Hst. rewrite Hb. exists act. split; [auto|].
      pose proof (good_det o s Hg) as [Ls Ds].
      assert (Hsa : mem s act) by (apply Hcs; [lia|eapply nd_act; eauto]). split.
      * split; [auto|]. split; [auto|]. split; [rewrite <- El1; eapply nd_cnt; eauto|].
        destruct Hst as (_ & _ & _ & z & Hz & Hxz). exists z. split; [auto|lia].
      * left. f_equal. symmetry. apply (nd_eq d c l act depth HN).
        -- rewrite cut_length; lia.
        -- split.
           ++ intros y Hy. rewrite mem_cut by lia. rewrite <- (proj1 Hcs) by auto. split; [tauto|]. intros; split; [auto|lia].
           ++ intros y Hy Hm. apply mem_cut in Hm; [|lia]. lia.
        -- intros y Hy Hm. apply mem_cut in Hm; lia.
  - assert (Nl : ~ (depth = max_depth o /\ far o act)).
    { intros H. apply (limit_iff d c l act depth HN) in H. congruence. }
    assert (Hcc : chain_ok N ((upd d act true, newc o c act) :: (d, c) :: l)).
    { apply (chain_push N (kept o)); try apply HN; [eapply nd_lcand; eauto|].
      intros x Hx. apply newc_spec in Hx; auto. tauto. }
    assert (Hrs : rspec o hi (recurse fuel o (upd d act true) (depth + 1)) (upd d act true) (depth + 1) act).
    { intros c' l' i Hi Hn'. apply IHfuel; auto. lia. }
    pose proof (loop_spec o M0 hi (recurse fuel o (upd d act true) (depth + 1)) (upd d act true) act depth Hrs LD
      (nd_act d c l act depth HN) (nd_max d c l act depth HN) (nd_adm d c l act depth HN)
      (n_hi _ _ _ _ _ _ _ HN) (n_depth _ _ _ _ _ _ _ HN) (n_small _ _ _ _ _ _ _ HN)
      (N - (act + 1)) (act + 1) (newc o c act) ((d, c) :: l) ltac:(lia) ltac:(lia) Hcc
      (newc_compat o M0 c d act Lc Ld (n_act _ _ _ _ _ _ _ HN) (n_compat _ _ _ _ _ _ _ HN)))
      as (c2 & l2 & p & f & E4 & S4 & C4 & P4).
    rewrite (nd_lcand d c l act depth HN). cbn [map snd] in E4. cbn [map snd]. rewrite E4.
    eexists l2, _, f. split; [reflexivity|]. split; [auto|]. split; [auto|].
    destruct P4 as (B1 & B2 & B3 & B4 & B5).
    assert (LC : forall s, lcond (upd d act true) (newc o c act) (act + 1) s -> 
       cset (upd d act true) c (act + 1) s /\ exists x, act < x /\ mem s x).
    { intros s [[H1 H2] (x & Hx & Hm)]. split; [|exists x; split; [lia|auto]]. split; auto.
      intros y Hy Hs. apply H2 in Hs; auto. apply newc_spec in Hs; auto. tauto. }
    assert (NE : forall s, (exists x, act < x /\ mem s x) -> s <> upd d act true).
    { intros s (x & Hx & Hm) ->. apply (nd_max d c l act depth HN) in Hm. lia. }
    assert (NS : forall s, length s = N -> deterministic (inn s) -> cset (upd d act true) c (act + 1) s -> ~ stops o hi s act).
    { intros s Ls Ds Hcs (_ & H2 & H3 & _). apply Nl. split; auto. rewrite <- H3. symmetry. eapply nd_cnt; eauto. }
    assert (LC2 : forall s, good o s -> cset (upd d act true) c (act + 1) s -> (exists x, act + 1 <= x /\ mem s x) ->
       lcond (upd d act true) (newc o c act) (act + 1) s).
    { intros s Hg Hcs Hx. split; [|auto]. split; [apply Hcs|]. intros y Hy Hm.
      destruct (nd_cand d c l act depth HN s) with (x := y) as [H|[_ H]]; auto; try apply Hg.
      apply (nd_max d c l act depth HN) in H. lia. }
    split; [|split; [|split; [|split]]].
    + apply NoDup_app_disj; auto. intros t H1 H2. apply Own in H1. destruct H1 as (-> & Hg & _).
      apply B2 in H2. destruct H2 as (s & T & Gs & Cs & _). apply LC in Cs. destruct Cs as [_ Cs].
      apply (NE s Cs). pose proof (good_det _ _ Hg). pose proof (good_det _ _ Gs).
      apply (tab_inj o M0); tauto.
    + intros t Ht. apply in_app_iff in Ht. destruct Ht as [Ht|Ht].
      * apply Own in Ht. destruct Ht as (-> & Hg & Hs). exists (upd d act true).
        split; [auto|]. split; [auto|]. split; [tauto|]. eapply nd_nostop; eauto.
      * apply B2 in Ht. destruct Ht as (s & T & Gs & Cs & St). exists s. split; [auto|]. split; [auto|].
        apply LC in Cs. destruct Cs as [Cs Ex]. split; [split; auto|].
        intros x Hx. destruct (Nat.eq_dec x act) as [->|]; [|apply St; lia].
        apply NS; auto; apply good_det; auto.
    + intros He s Gs [Cs Hne] St. apply in_app_iff. destruct (more_dec s (act + 1)) as [Ex|Ex].
      * right. apply B3; auto. intros x Hx. apply St. lia.
      * left. assert (Es : s = upd d act true).
        { apply (nd_eq d c l act depth HN); auto; [apply Gs|]. intros x Hx. apply Ex. lia. }
        apply Own. subst s. split; [auto|]. split; [auto|]. intros [? ?]. apply Hne; auto.
    + intros t Ht. apply B4 in Ht. destruct Ht as (s & T & Fs & Cs). exists s. split; [auto|]. split; [auto|].
      apply LC. auto.
    + intros He Hb s x Gs [Cs Hne] Hx St. pose proof (good_det o s Gs) as [Ls Ds].
      destruct (Nat.eq_dec x act) as [->|Hxa]; [exfalso; apply (NS s); auto|].
      destruct (B5 He Hb s x Gs) as (x' & X1 & X2); auto; [|lia|].
      * apply LC2; auto. exists x. split; [lia|apply St].
      * exists x'. split; [lia|auto].
Qed.
End Search.
