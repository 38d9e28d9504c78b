(** Reading the actions off the given protocol. *)
From Coq Require Import List Arith Bool Lia.
From Verif Require Import FinLib Radix FmlaModel FmlaSpec FmlaProofs FmlaProofs2 FmlaProofs3 FmlaProofs4 FmlaProps
  ActModel ActSpec ActProofs ActProofs2 ActProofs4 ActProps NetModel NetSpec NetProofs NetProofs2 NetProofs3 NetProofs4
  CandModel CandSpec CandProofs GivenSpec.
Import ListNotations.

Definition any_sys (N : network) : system := mkSystem N (Cst true) (Cst true) (Cst false) false false false.

Section Given.
Variable N : network.
Notation ds := (vdoms N).
Notation ok := (FmlaSpec.ok (vdoms N)).
Hypothesis HN : net_ok N.
Let INH : inhabited ds := inh N HN.

(** How many states meet a condition. *)
Definition count (f : list nat -> bool) : nat := length (filter f (assignments ds)).
Lemma count_le : forall f, count f <= length (assignments ds).
Proof. intros f. unfold count. induction (assignments ds) as [|x l IH]; cbn; auto. destruct (f x); cbn; lia. Qed.
Lemma count_mono : forall f g, (forall s, ok s -> g s = true -> f s = true) ->
  (exists s, ok s /\ f s = true /\ g s = false) -> count g < count f.
Proof.
  intros f g H (s & S & F & G). apply in_assignments in S. unfold count.
  assert (HL : forall x, In x (assignments ds) -> g x = true -> f x = true) by (intros x Hx; apply H; apply in_assignments; auto).
  clear H. revert S HL. induction (assignments ds) as [|x l IH]; intros S HL; [destruct S|].
  assert (LE : length (filter g l) <= length (filter f l)).
  { assert (HL' : forall y, In y l -> g y = true -> f y = true) by (intros; apply HL; cbn; auto). clear -HL'.
    induction l as [|y l IH]; cbn; auto. pose proof (HL' y (or_introl eq_refl)). 
    assert (length (filter g l) <= length (filter f l)) by (apply IH; intros; apply HL'; cbn; auto).
    destruct (g y), (f y); cbn; try lia; specialize (H eq_refl); discriminate. }
  cbn. destruct S as [->|S].
  - rewrite F, G. cbn. lia.
  - assert (L : length (filter g l) < length (filter f l)) by (apply IH; auto; intros; apply HL; cbn; auto).
    pose proof (HL x (or_introl eq_refl)). destruct (g x), (f x); cbn; try lia; specialize (H eq_refl); discriminate.
Qed.

Lemma nimp_state : forall f g s, holds (nimp_PFmla f g) s <-> holds f s /\ ~ holds g s.
Proof. intros f g s. unfold holds, meaning. rewrite eval_nimp, andb_true_iff, negb_true_iff, not_true_iff_false. tauto. Qed.
Lemma nimp_is_state : forall f g, state_fmla ds f -> state_fmla ds g -> state_fmla ds (nimp_PFmla f g).
Proof.
  intros f g F G. apply state_of_eval. intros b i q B I Q. rewrite !eval_nimp.
  rewrite (state_eval ds f F b i q B I Q), (state_eval ds g G b i q B I Q). reflexivity.
Qed.
Lemma nimp_steps : forall f g s t, ok s -> ok t -> state_fmla ds g -> (steps (nimp_PFmla f g) s t <-> steps f s t /\ ~ holds g s).
Proof.
  intros f g s t S T G. unfold steps, holds, meaning. rewrite eval_nimp, andb_true_iff, negb_true_iff, not_true_iff_false.
  rewrite (state_eval ds g G s t s S T S). tauto.
Qed.
Lemma nimp_is_trans : forall f g, trans_fmla ds f -> state_fmla ds g -> trans_fmla ds (nimp_PFmla f g).
Proof.
  intros f g F G. apply trans_of_eval. intros b i q B I Q. rewrite !eval_nimp.
  rewrite (trans_eval ds f F b i q B I Q), (state_eval ds g G b i q B I Q), (state_eval ds g G q i q Q I Q). reflexivity.
Qed.
Lemma of_state_is_state : forall st ids, wf_ids ds ids -> state_fmla ds (of_state ds st ids).
Proof.
  intros st ids W. unfold of_state.
  assert (G : forall l x, (forall u, In u l -> fst u < length ds) -> state_fmla ds x ->
     state_fmla ds (fold_left (fun conj vx => and_PFmla conj (eqc_PFmlaVbl ds (fst vx) (snd vx))) l x)).
  { induction l as [|u l IH]; intros x Hl SX; cbn [fold_left]; auto. apply IH; [intros; apply Hl; cbn; auto|]. apply and_state; auto.
    intros b i b' i' q B I B' I' Q. unfold meaning. rewrite !(ev_eqc ds) by (auto; apply Hl; cbn; auto). reflexivity. }
  apply G.
  - intros (u & y) Hu. apply in_combine_l in Hu. unfold wf_ids in W. rewrite Forall_forall in W. auto.
  - intros b i b' i' q _ _ _ _ _. cbn. tauto.
Qed.

Section Process.
Variable p : process.
Hypothesis Hp : In p (pcs N).
Notation k := (kind_of N p).
Hypothesis OK : open_kind k.

Lemma acc_in : forall i, i < nr k -> In (acc k i) (accs k).
Proof. intros i Hi. apply nth_In. exact Hi. Qed.
Lemma all_read : forall i, i < nr k -> synt_read_ck (acc k i) = true.
Proof. intros i Hi. apply visible_iff. apply OK, acc_in. auto. Qed.
Lemma none_random : forall i, i < nr k -> random_write_ck (acc k i) = false.
Proof. intros i Hi. unfold random_write_ck. destruct (OK _ (acc_in i Hi)) as (_ & H). destruct (a_type (acc k i)); congruence. Qed.
Lemma no_keep : forall w, w < nw k -> (wdomsz (waccess k w) =? a_dom (waccess k w) + 1) = false.
Proof.
  intros w Hw. destruct (wmap_nth k w Hw) as (B & W & _). unfold waccess. apply Nat.eqb_neq. unfold wdomsz, wck in *. rewrite W, none_random by auto.
  pose proof (OK _ (acc_in _ B)) as ((V1 & V2 & V3) & _). unfold pure_shadow_ck.
  destruct (a_role _); try congruence; destruct (a_type _); cbn [negb]; try congruence; lia.
Qed.

Lemma own_wf : wf_ids ds (own_wvbls N p).
Proof.
  unfold wf_ids, own_wvbls. apply Forall_forall. intros x Hx. apply in_map_iff in Hx. destruct Hx as (w & <- & Hw). apply in_seq in Hw.
  unfold wvbl. destruct (wmap_nth k w ltac:(lia)) as (B & _). apply (no_id _ HN p _ Hp B).
Qed.
Lemma read_wf : wf_ids ds (p_vbls p).
Proof.
  unfold wf_ids. apply Forall_forall. intros x Hx. apply In_nth with (d := 0) in Hx. destruct Hx as (i & Hi & <-).
  rewrite (no_vbls _ HN p Hp) in Hi. apply (no_id _ HN p i Hp Hi).
Qed.

Lemma generalise_none : forall img_pf ws tmp st, (forall w, In w ws -> w < nw k) -> generalise N k p img_pf ws tmp st = (tmp, st).
Proof.
  induction ws as [|w ws IH]; intros tmp st H; cbn [generalise]; auto. rewrite no_keep by (apply H; cbn; auto). apply IH. intros; apply H; cbn; auto.
Qed.
Lemma smooth_unread_none : forall f, smooth_unread N k p f = f.
Proof.
  intros f. unfold smooth_unread. assert (G : forall l x, (forall i, In i l -> i < nr k) ->
    fold_left (fun x i => if negb (synt_read_ck (acc k i)) then smooth_vbls ds x [rvbl p i] AllCopies else x) l x = x).
  { induction l as [|i l IH]; intros x H; cbn [fold_left]; auto. rewrite all_read by (apply H; cbn; auto). cbn [negb]. apply IH. intros; apply H; cbn; auto. }
  apply G. intros i Hi. apply in_seq in Hi. lia.
Qed.
Lemma fix_random_none : forall f, fix_random N k p f = f.
Proof.
  intros f. unfold fix_random. assert (G : forall l x, (forall i, In i l -> i < nr k) ->
    fold_left (fun x i => if random_write_ck (acc k i)
        then and_PFmla (smooth_vbls ds x [rvbl p i] AllCopies) (eqc_PFmlaVbl ds (rvbl p i) 0) else x) l x = x).
  { induction l as [|i l IH]; intros x H; cbn [fold_left]; auto. rewrite none_random by (apply H; cbn; auto). apply IH. intros; apply H; cbn; auto. }
  apply G. intros i Hi. apply in_seq in Hi. lia.
Qed.
Lemma set_where_none : forall l i v, i + length l <= nr k -> set_where (fun i => negb (synt_read_ck (acc k i))) v i l = l.
Proof.
  induction l as [|x l IH]; intros i v H; cbn [set_where length] in *; auto. rewrite all_read by lia. cbn [negb]. f_equal. apply IH. lia.
Qed.

Definition number (g h : list nat) : nat := id_of (kinds N) {| act_pc := p_kind p; vals := g ++ h |}.

Lemma pick_some : forall f ids, wf_ids ds ids -> sat_ck ds f = true -> exists st, state_of_PFmla ds f ids = Some st /\
  exists a i q, ok a /\ ok i /\ ok q /\ meaning f a i q /\ values ids q = st.
Proof.
  intros f ids W E. assert (SAT := proj1 (sat_iff ds INH f) E).
  assert (X : exists st, state_of_PFmla ds f ids = Some st).
  { destruct f as [[]|f]; cbn; eauto. cbn in E. discriminate. }
  destruct X as (st & X). exists st. split; auto.
  apply (C57_state_of_least ds INH f ids st W); auto.
Qed.

Lemma img_loop_spec : forall fuel g img_pf ret, state_fmla ds img_pf -> count (fun t => eval img_pf (join t t t)) < fuel ->
  exists l, img_loop N fuel k p g img_pf ret = Some (ret ++ l) /\
    forall a, In a l <-> exists t, ok t /\ holds img_pf t /\ a = number g (values (own_wvbls N p) t).
Proof.
  induction fuel as [|fuel IH]; intros g f ret SF C; [lia|]. cbn [img_loop]. destruct (sat_ck ds f) eqn:E.
  - destruct (pick_some f (own_wvbls N p) own_wf E) as (st & -> & b & i & t0 & B & I & T0 & M & V).
    rewrite generalise_none by (intros w Hw; apply in_seq in Hw; lia).
    assert (LS : length st = length (own_wvbls N p)) by (rewrite <- V; unfold values; rewrite map_length; auto).
    assert (H0 : holds f t0) by (unfold holds, meaning; rewrite <- (state_eval ds f SF b i t0 B I T0); auto).
    assert (OS : forall t, ok t -> (holds (of_state ds st (own_wvbls N p)) t <-> values (own_wvbls N p) t = st)).
    { intros t T. apply (C57_of_state_exact ds st (own_wvbls N p) own_wf LS t t T T). }
    destruct (IH g (nimp_PFmla f (of_state ds st (own_wvbls N p)))
       (ret ++ [id_of (kinds N) {| act_pc := p_kind p; vals := g ++ st |}])) as (l & EL & HL).
    + apply nimp_is_state; auto. apply of_state_is_state. apply own_wf.
    + enough (count (fun t => eval (nimp_PFmla f (of_state ds st (own_wvbls N p))) (join t t t)) < count (fun t => eval f (join t t t))) by lia.
      apply count_mono.
      * intros t T H. apply (nimp_state f _ t) in H. apply H.
      * exists t0. split; auto. split; auto. apply not_true_iff_false. intros H. apply (nimp_state f _ t0) in H. destruct H as (_ & H). apply H, OS; auto.
    + exists (id_of (kinds N) {| act_pc := p_kind p; vals := g ++ st |} :: l). split; [rewrite EL, <- app_assoc; reflexivity|].
      intros a. cbn [In]. rewrite HL. split.
      * intros [<-|(t & T & H & ->)].
        -- exists t0. split; auto. split; auto. rewrite V. reflexivity.
        -- apply nimp_state in H. exists t. tauto.
      * intros (t & T & H & ->). destruct (list_eq_dec Nat.eq_dec (values (own_wvbls N p) t) st) as [D|D].
        -- left. rewrite D. reflexivity.
        -- right. exists t. split; auto. split; auto. apply nimp_state. split; auto. rewrite OS; auto.
  - exists []. rewrite app_nil_r. split; auto. intros a. split; [intros []|]. intros (t & T & H & _).
    enough (sat_ck ds f = true) by congruence. apply (sat_state ds INH); auto. eauto.
Qed.

Lemma img1_is_state : forall X Q, trans_fmla ds X -> state_fmla ds Q -> (exists s, ok s /\ holds Q s) -> state_fmla ds (img1_PFmla ds X Q).
Proof.
  intros X Q TX SQ (s0 & S0 & H0).
  assert (NB : forall b i : list nat, ok b -> ok i -> X = Cst true -> (exists q, Q = Mdd q) -> exists s, ok s /\ eval Q (join b i s) = true).
  { intros b i B I _ _. exists s0. split; auto. rewrite (state_eval ds Q SQ b i s0 B I S0). exact H0. }
  apply state_of_eval. intros b i q B I P. apply iff_eqb. rewrite !(ev_img1 ds) by (auto; apply NB; auto).
  split; intros (s & S' & E1 & E2); exists s; (split; [auto|]);
    rewrite (trans_eval ds _ TX) in * by auto; rewrite (state_eval ds Q SQ) in * by auto; auto.
Qed.

Definition enabled_b (x : fmla) (s : list nat) : bool := existsb (fun t => eval x (join s t s)) (assignments ds).
Lemma enabled_iff : forall x s, enabled_b x s = true <-> exists t, ok t /\ steps x s t.
Proof.
  intros x s. unfold enabled_b. rewrite existsb_exists. split; intros (t & H1 & H2); exists t; split; auto; apply in_assignments; auto.
Qed.

Lemma pre_loop_spec : forall fuel x ret, trans_fmla ds x -> count (enabled_b x) + length (assignments ds) < fuel ->
  exists l, pre_loop N fuel k p x ret = Some (ret ++ l) /\
    forall a, In a l <-> exists s t, ok s /\ ok t /\ steps x s t /\ a = number (values (p_vbls p) s) (values (own_wvbls N p) t).
Proof.
  induction fuel as [|fuel IH]; intros x ret TX C; [lia|]. cbn [pre_loop]. destruct (sat_ck ds x) eqn:E.
  - destruct (pick_some x (p_vbls p) read_wf E) as (st & -> & b & i & s0 & B & I & S0 & M & V).
    assert (LS : length st = length (p_vbls p)) by (rewrite <- V; unfold values; rewrite map_length; auto).
    rewrite smooth_unread_none, fix_random_none, set_where_none by (rewrite LS, (no_vbls _ HN p Hp); reflexivity).
    assert (H0 : steps x s0 i) by (unfold steps, meaning; rewrite <- (trans_eval ds x TX b i s0 B I S0); auto).
    assert (SQ : state_fmla ds (of_state ds st (p_vbls p))) by (apply of_state_is_state, read_wf).
    assert (OS : forall t, ok t -> (holds (of_state ds st (p_vbls p)) t <-> values (p_vbls p) t = st)).
    { intros t T. apply (C57_of_state_exact ds st (p_vbls p) read_wf LS t t T T). }
    assert (NE : exists s, ok s /\ holds (of_state ds st (p_vbls p)) s) by (exists s0; split; auto; apply OS; auto).
    assert (NC : ~ const_true_on_empty ds x (of_state ds st (p_vbls p))) by (intros (_ & _ & H); destruct NE as (s & S & HS); apply (H s S HS)).
    destruct (img_loop_spec fuel st (img1_PFmla ds x (of_state ds st (p_vbls p))) ret) as (l1 & E1 & H1).
    { apply img1_is_state; auto. }
    { pose proof (count_le (fun t => eval (img1_PFmla ds x (of_state ds st (p_vbls p))) (join t t t))).
      assert (0 < count (enabled_b x)); [|lia].
      unfold count. assert (IN : In s0 (filter (enabled_b x) (assignments ds))).
      { apply filter_In. split; [apply in_assignments; auto|]. apply enabled_iff. eauto. }
      destruct (filter _ _); [destruct IN|cbn; lia]. }
    rewrite E1.
    destruct (IH (nimp_PFmla x (of_state ds st (p_vbls p))) (ret ++ l1)) as (l2 & E2 & H2).
    { apply nimp_is_trans; auto. }
    { enough (count (enabled_b (nimp_PFmla x (of_state ds st (p_vbls p)))) < count (enabled_b x)) by lia. apply count_mono.
      - intros s S H. apply enabled_iff in H. destruct H as (t & T & H). apply nimp_steps in H; auto. apply enabled_iff. exists t. tauto.
      - exists s0. split; auto. split; [apply enabled_iff; eauto|]. apply not_true_iff_false. intros H. apply enabled_iff in H. destruct H as (t & T & H).
        apply nimp_steps in H; auto. destruct H as (_ & H). apply H, OS; auto. }
    exists (l1 ++ l2). split; [rewrite E2, app_assoc; reflexivity|]. intros a. rewrite in_app_iff, H1, H2. split.
    + intros [(t & T & H & ->)|(s & t & S & T & H & ->)].
      * apply (img1_state ds) in H; auto. destruct H as (s & S & H & HQ). apply OS in HQ; auto. exists s, t. rewrite HQ. auto.
      * apply nimp_steps in H; auto. exists s, t. tauto.
    + intros (s & t & S & T & H & ->). destruct (list_eq_dec Nat.eq_dec (values (p_vbls p) s) st) as [D|D].
      * left. exists t. split; auto. split; [|rewrite D; auto]. apply (img1_state ds); auto. exists s. split; auto. split; auto. apply OS; auto.
      * right. exists s, t. split; auto. split; auto. split; auto. apply nimp_steps; auto. split; auto. rewrite OS; auto.
  - exists []. rewrite app_nil_r. split; auto. intros a. split; [intros []|]. intros (s & t & S & T & H & _).
    enough (sat_ck ds x = true) by congruence. apply (sat_trans ds INH); auto. eauto.
Qed.

(** Numbers and values *)
Lemma values_read : forall s, length (values (p_vbls p) s) = nr k /\ forall i, i < nr k -> nth i (values (p_vbls p) s) 0 = value s p i.
Proof.
  intros s. unfold values. rewrite map_length, (no_vbls _ HN p Hp). split; [reflexivity|]. intros i Hi.
  rewrite nth_indep with (d' := (fun v => nth v s 0) 0) by (rewrite map_length, (no_vbls _ HN p Hp); exact Hi). rewrite (map_nth (fun v => nth v s 0)). reflexivity.
Qed.
Lemma values_own : forall s, length (values (own_wvbls N p) s) = nw k /\
  forall i, i < nr k -> writable (acc k i) -> nth (place k i) (values (own_wvbls N p) s) 0 = value s p i.
Proof.
  intros s. unfold values, own_wvbls. rewrite map_map, map_length, seq_length. split; auto. intros i Hi W.
  apply writable_ck in W. destruct (nth_place k i Hi W) as (L & E).
  rewrite nth_indep with (d' := (fun w => nth (wvbl N p w) s 0) 0) by (rewrite map_length, seq_length; auto).
  rewrite (map_nth (fun w => nth (wvbl N p w) s 0)), seq_nth by auto. cbn [Nat.add]. unfold wvbl. rewrite E. reflexivity.
Qed.
Lemma described : forall v s t, action_values k v ->
  (v = values (p_vbls p) s ++ values (own_wvbls N p) t <-> describes N p v s t).
Proof.
  intros v s t (LV & _ & _). destruct (values_read s) as (L1 & R1). destruct (values_own t) as (L2 & R2).
  fold (nr k) in LV. rewrite place_all in LV.
  unfold describes. change (its_kind N p) with k. change (accesses N p) with (nr k). split.
  - intros ->. split.
    + intros i Hi. unfold tested. rewrite app_nth1 by lia. rewrite R1; auto.
    + intros i Hi W. unfold assigned. rewrite app_nth2 by (fold (nr k); lia). fold (nr k). rewrite L1.
      replace (nr k + place k i - nr k) with (place k i) by lia. rewrite R2; auto.
  - intros (H1 & H2). apply nth_ext with (d := 0) (d' := 0); [rewrite app_length; lia|]. intros n Hn.
    destruct (Nat.lt_ge_cases n (nr k)) as [L|L].
    + rewrite app_nth1 by lia. rewrite R1 by auto. symmetry. apply H1. auto.
    + rewrite app_nth2 by lia. rewrite L1. destruct (wmap_nth k (n - nr k) ltac:(lia)) as (B & W & PL).
      set (i := nth (n - nr k) (wmap k) 0) in *. rewrite <- PL. rewrite R2 by (auto; apply writable_ck; auto).
      rewrite (H2 i B) by (apply writable_ck; auto). unfold assigned. fold (nr k). rewrite PL. f_equal. lia.
Qed.
Lemma values_valid : forall s t, ok s -> ok t -> action_values k (values (p_vbls p) s ++ values (own_wvbls N p) t).
Proof.
  intros s t S T. destruct (values_read s) as (L1 & R1). destruct (values_own t) as (L2 & R2).
  assert (D : forall i, i < nr k -> value s p i < a_dom (acc k i) /\ value t p i < a_dom (acc k i)).
  { intros i Hi. destruct (no_id _ HN p i Hp Hi) as (A1 & A2 & _). change (access_at N p i) with (acc k i) in A2. rewrite <- A2.
    split; apply ok_nth; auto. }
  split; [|split].
  - rewrite app_length, L1, L2. fold (nr k). rewrite place_all. reflexivity.
  - intros i Hi. fold (nr k) in Hi. unfold tested. rewrite app_nth1 by lia. rewrite R1 by auto. fold (acc k i).
    specialize (D i Hi). pose proof (OK _ (acc_in i Hi)) as ((V1 & V2 & V3) & _). unfold guard_values.
    destruct (a_role (acc k i)); try congruence; destruct (a_type (acc k i)); try congruence; lia.
  - intros i Hi W. fold (nr k) in *. unfold assigned. fold (nr k). rewrite app_nth2 by lia. rewrite L1.
    replace (nr k + place k i - nr k) with (place k i) by lia. rewrite R2 by auto.
    specialize (D i Hi). pose proof (OK _ (acc_in i Hi)) as ((V1 & V2 & V3) & V4). fold (acc k i). unfold assign_values.
    destruct (a_type (acc k i)); try congruence; destruct (a_role (acc k i)); try congruence; lia.
Qed.

Lemma number_iff : forall a s t, ok s -> ok t ->
  (a = number (values (p_vbls p) s) (values (own_wvbls N p) t) <->
   a < actions_in (kinds N) /\ act_pc (act_of (kinds N) a) = p_kind p /\ describes N p (vals (act_of (kinds N) a)) s t).
Proof.
  intros a s t S T. pose proof (values_valid s t S T) as V. pose proof (no_kind _ HN p Hp) as HK. split.
  - intros ->. destruct (C39_encode (kinds N) {| act_pc := p_kind p; vals := values (p_vbls p) s ++ values (own_wvbls N p) t |} HK V) as (L & E).
    unfold number. rewrite E. cbn [act_pc vals]. split; auto. split; auto. apply described; auto.
  - intros (L & PC & D). destruct (C39_decode (kinds N) a L) as (_ & V' & E). rewrite PC in V'. apply described in D; auto.
    rewrite <- E. unfold number. f_equal. destruct (act_of (kinds N) a) as [pc v]. cbn [act_pc vals] in *. congruence.
Qed.

Lemma pc_actions_spec : forall fuel, 2 * length (assignments ds) < fuel ->
  exists l, pc_actions N fuel p = Some l /\
    forall a, In a l <-> a < actions_in (kinds N) /\ act_pc (act_of (kinds N) a) = p_kind p /\
      exists s t, given_to N p s t /\ describes N p (vals (act_of (kinds N) a)) s t.
Proof.
  intros fuel F. unfold pc_actions.
  assert (SA : state_fmla ds (p_assume p)) by (apply no_assume; auto).
  assert (TP : trans_fmla ds (p_puppet p)) by (apply (no_local _ HN p Hp); cbn; auto).
  destruct (pre_loop_spec fuel (and_PFmla (p_puppet p) (p_assume p)) []) as (l & E & H).
  - apply and_trans; auto. apply state_trans; auto.
  - pose proof (count_le (enabled_b (and_PFmla (p_puppet p) (p_assume p)))). lia.
  - exists l. split; auto. intros a. rewrite H. unfold given_to. split.
    + intros (s & t & S & T & ST & EA). apply (steps_and_state ds) in ST; auto. apply number_iff in EA; auto. destruct EA as (H1 & H2 & H3).
      split; auto. split; auto. exists s, t. tauto.
    + intros (H1 & H2 & s & t & (S & T & G1 & G2) & D). exists s, t. split; auto. split; auto. split.
      * apply (steps_and_state ds); auto.
      * apply number_iff; auto.
Qed.
End Process.

Hypothesis OPEN : forall p, In p (pcs N) -> open_kind (its_kind N p).

Definition yields (q : process) (a : nat) : Prop :=
  a < actions_in (kinds N) /\ act_pc (act_of (kinds N) a) = p_kind q /\
  exists s t, given_to N q s t /\ describes N q (vals (act_of (kinds N) a)) s t.

Lemma own_distinct : forall p, In p (pcs N) -> NoDup (p_vbls p) -> NoDup (map (wvbl N p) (seq 0 (nw (kind_of N p)))).
Proof.
  intros p Hp ND. pose proof (no_vbls _ HN p Hp) as L.
  assert (E : map (wvbl N p) (seq 0 (nw (kind_of N p))) = map (rvbl p) (wmap (kind_of N p))).
  { unfold nw. rewrite <- (map_map (fun w => nth w (wmap (kind_of N p)) 0) (rvbl p)). f_equal.
    apply map_nth_seq. }
  rewrite E. assert (NW : NoDup (wmap (kind_of N p))) by (unfold wmap; apply NoDup_filter, seq_NoDup).
  assert (B : forall i, In i (wmap (kind_of N p)) -> i < length (p_vbls p)).
  { intros i Hi. unfold wmap in Hi. apply filter_In in Hi. destruct Hi as (Hi & _). apply in_seq in Hi. rewrite L. unfold accesses. unfold nr, kind_of in Hi. unfold its_kind. lia. }
  clear E. induction NW as [|i l NI NW IH]; cbn; constructor.
  - intros X. apply in_map_iff in X. destruct X as (i' & E & Hi'). unfold rvbl in E.
    assert (i' = i); [|subst; contradiction]. rewrite NoDup_nth with (d := 0) in ND. apply ND; auto; apply B; cbn; auto.
  - apply IH. intros; apply B; cbn; auto.
Qed.

Lemma representative_cases : forall k,
  match representative N k with
  | Some (j, q) => nth_error (pcs N) j = Some q /\ p_kind q = k /\ NoDup (p_vbls q) /\
      forall i q', i < j -> nth_error (pcs N) i = Some q' -> p_kind q' = k -> ~ NoDup (p_vbls q')
  | None => forall q', In q' (pcs N) -> p_kind q' = k -> ~ NoDup (p_vbls q')
  end.
Proof.
  intros k. unfold representative. set (f := fun ip : nat * process => _).
  assert (FI : forall j q, nth_error (pcs N) j = Some q -> (f (j, q) = true <-> NoDup (p_vbls q))).
  { intros j q Hj. unfold f. cbn [snd]. rewrite andb_true_iff, !distinct_iff. split; [tauto|]. intros H. split; auto.
    apply own_distinct; auto. eapply nth_error_In. eauto. }
  destruct (find f (membs N k)) as [(j, q)|] eqn:F.
  - destruct (find_first f _ _ (membs_increasing (any_sys N) k) F) as (H1 & H2 & H3). apply (membs_in (any_sys N)) in H1. destruct H1 as (H0 & H1).
    split; auto. split; auto. split; [apply (FI j q H0); auto|]. intros i q' L Hi K ND.
    apply (FI i q' Hi) in ND. rewrite H3 in ND; [discriminate| |cbn; lia]. apply (membs_in (any_sys N)). auto.
  - intros q Hq K ND. apply In_nth_error in Hq. destruct Hq as (i & Hi). apply (FI i q Hi) in ND.
    rewrite (find_none f _ F (i, q)) in ND; [discriminate|]. apply (membs_in (any_sys N)). auto.
Qed.

Lemma kind_spec : forall fuel k, 2 * length (assignments ds) < fuel ->
  exists l, kind_actions N fuel k = Some l /\ forall a, In a l <-> exists q, speaks N q /\ p_kind q = k /\ yields q a.
Proof.
  intros fuel k F. pose proof (representative_cases k) as R. unfold kind_actions. destruct (representative N k) as [(j, q)|].
  - destruct R as (R1 & R2 & R3 & R4). assert (Hq : In q (pcs N)) by (eapply nth_error_In; eauto).
    destruct (pc_actions_spec q Hq (OPEN q Hq) fuel F) as (l & E & H). exists l. cbn [snd]. split; auto. intros a. rewrite H. split.
    + intros Y. exists q. split; [|split; auto]. split; auto. left. exists j. split; auto. split; auto. rewrite R2. auto.
    + intros (q' & (Hq' & SP) & K & Y). enough (q' = q) by (subst; exact Y).
      destruct SP as [(j' & J & ND & FI)|NO].
      * destruct (Nat.lt_trichotomy j j') as [L|[L|L]]; [|subst; congruence|].
        -- exfalso. apply (FI j q L R1); auto. congruence.
        -- exfalso. apply (R4 j' q' L J); auto.
      * exfalso. apply (NO q Hq); auto. congruence.
  - assert (G : forall (ms : list (nat * process)) acc, (forall ip, In ip ms -> In (snd ip) (pcs N)) ->
      exists l, fold_left (fun acc ip => option_app acc (pc_actions N fuel (snd ip))) ms (Some acc) = Some l /\
        forall a, In a l <-> In a acc \/ exists ip, In ip ms /\ yields (snd ip) a).
    { induction ms as [|ip ms IH]; intros acc Hm; cbn [fold_left].
      - exists acc. split; auto. intros a. split; auto. intros [H|(ip & [] & _)]. auto.
      - destruct (pc_actions_spec (snd ip) (Hm ip (or_introl eq_refl)) (OPEN _ (Hm ip (or_introl eq_refl))) fuel F) as (l & E & H). rewrite E. cbn [option_app].
        destruct (IH (acc ++ l) (fun jq Hj => Hm jq (or_intror Hj))) as (l2 & E2 & H2). exists l2. split; auto. intros a. rewrite H2, in_app_iff, H. cbn [In].
        split.
        + intros [[X|X]|(jq & Hj & X)]; eauto.
        + intros [X|(jq & [<-|Hj] & X)]; eauto. }
    destruct (G (membs N k) []) as (l & E & H).
    { intros (i & q) Hi. apply (membs_in (any_sys N)) in Hi. destruct Hi as (Hi & _). eapply nth_error_In. eauto. }
    exists l. split; auto. intros a. rewrite H. split.
    + intros [[]|((i & q) & Hi & Y)]. apply (membs_in (any_sys N)) in Hi. destruct Hi as (Hi & K). cbn [snd] in Y. exists q. split; [|auto].
      split; [eapply nth_error_In; eauto|]. right. rewrite K. exact R.
    + intros (q & (Hq & _) & K & Y). right. apply In_nth_error in Hq. destruct Hq as (i & Hi). exists (i, q). split; auto. apply (membs_in (any_sys N)). auto.
Qed.

Lemma given_spec : forall fuel, 2 * length (assignments ds) < fuel ->
  exists l, given_actions N fuel = Some l /\
    forall a, In a l <-> exists q r, speaks N q /\ yields q r /\ representative_action_index (kinds N) r = Some a.
Proof.
  intros fuel F.
  assert (G : forall ks acc, exists l, fold_left (fun acc k => option_app acc (match kind_actions N fuel k with Some l => Some (representatives N l) | None => None end)) ks (Some acc) = Some l /\
    forall a, In a l <-> In a acc \/ exists q r, In (p_kind q) ks /\ speaks N q /\ yields q r /\ representative_action_index (kinds N) r = Some a).
  { induction ks as [|k ks IH]; intros acc; cbn [fold_left].
    - exists acc. split; auto. intros a. split; auto. intros [H|(q & r & [] & _)]. auto.
    - destruct (kind_spec fuel k F) as (l & E & H). rewrite E. cbn [option_app].
      destruct (IH (acc ++ representatives N l)) as (l2 & E2 & H2). exists l2. split; auto. intros a. rewrite H2, in_app_iff.
      assert (RL : In a (representatives N l) <-> exists q r, p_kind q = k /\ speaks N q /\ yields q r /\ representative_action_index (kinds N) r = Some a).
      { unfold representatives. rewrite in_flat_map. split.
        - intros (r & Hr & X). apply H in Hr. destruct Hr as (q & SP & K & Y). exists q, r.
          destruct (representative_action_index (kinds N) r); [destruct X as [->|[]]|destruct X]. auto.
        - intros (q & r & K & SP & Y & X). exists r. split; [apply H; eauto|]. rewrite X. cbn. auto. }
      rewrite RL. cbn [In]. split.
      + intros [[X|(q & r & K & X)]|(q & r & K & X)]; auto; right; exists q, r; auto.
      + intros [X|(q & r & [K|K] & X)]; auto; [left; right|right]; exists q, r; auto. }
  destruct (G (seq 0 (length (kinds N))) []) as (l & E & H). exists l. split; auto. intros a. rewrite H. split.
  - intros [[]|(q & r & _ & X)]. eauto.
  - intros (q & r & SP & X). right. exists q, r. split; auto. apply in_seq. pose proof (no_kind _ HN q (proj1 SP)). lia.
Qed.
End Given.
