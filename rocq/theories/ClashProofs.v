From Coq Require Import String List Arith Bool ZArith Lia.
From Verif Require Import FinLib Radix FmlaModel FmlaSpec FmlaProofs FmlaProofs2 FmlaProofs3 FmlaProofs4 FmlaProps
  ActModel NetModel NetSpec IntModel ExprModel ExprSpec CmdModel CmdSpec CmdProofs4 CmdProofs3 DeclModel ConflictSpec ConflictModel ConflictProofs ClashModel ClashSpec.
From Verif Require CandProofs RsynProofs.
Import ListNotations.
Local Open Scope list_scope.
Local Open Scope nat_scope.

Section Value.
Variable N : network.
Variable mb : membr.
Notation ds := (vdoms N).
Notation p := (m_pc mb).
Notation ok := (FmlaSpec.ok ds).
Hypothesis INH : inhabited ds.
Variable x : fmla.
Hypothesis TX : trans_fmla ds x.
Hypothesis SOME : exists s t, ok s /\ ok t /\ FmlaSpec.steps x s t.

Lemma pick_some : forall f ids, wf_ids ds ids -> FmlaModel.sat_ck ds f = true -> exists st, state_of_PFmla ds f ids = Some st /\
  exists a i q, ok a /\ ok i /\ ok q /\ meaning f a i q /\ values ids q = st.
Proof.
  intros f ids W E. assert (SAT := proj1 (sat_iff ds INH f) E).
  assert (X : exists st, state_of_PFmla ds f ids = Some st) by (destruct f as [[]|f]; cbn; eauto; cbn in E; discriminate).
  destruct X as (st & X). exists st. split; auto. apply (C57_state_of_least ds INH f ids st W); auto.
Qed.
Lemma x_sat : FmlaModel.sat_ck ds x = true.
Proof. apply (CandProofs.sat_trans ds INH x TX). exact SOME. Qed.
Lemma is_shadow_iff : forall v, is_shadow N v = true <-> nth v (vroles N) Direct = Shadow.
Proof. intros v. unfold is_shadow, role_of. destruct (nth v (vroles N) Direct); intuition discriminate. Qed.

Lemma sub_eqc : forall v c, v < length ds ->
  (FmlaModel.subseteq_ck ds x (eqc_PFmlaVbl ds v c) = true <-> forall s t, ok s -> ok t -> FmlaSpec.steps x s t -> nth v s 0 = c).
Proof.
  intros v c V. rewrite (CandProofs.sub_trans ds INH x _ TX (state_trans ds _ (eqc_state_fmla ds v c V))).
  split; intros H s t S T ST; specialize (H s t S T ST).
  - unfold FmlaSpec.steps, meaning in H. rewrite (ev_eqc ds) in H by auto. apply Nat.eqb_eq. auto.
  - unfold FmlaSpec.steps, meaning. rewrite (ev_eqc ds) by auto. apply Nat.eqb_eq. auto.
Qed.
Lemma sub_img_eqc : forall v c, v < length ds -> c < nth v ds 0 ->
  (FmlaModel.subseteq_ck ds x (img_eqc_PFmlaVbl ds v c) = true <-> forall s t, ok s -> ok t -> FmlaSpec.steps x s t -> nth v t 0 = c).
Proof.
  intros v c V C.
  assert (TI : trans_fmla ds (img_eqc_PFmlaVbl ds v c)).
  { apply trans_of_eval. intros a i q A I Q. rewrite !(ev_img_eqc ds) by auto. auto. }
  rewrite (CandProofs.sub_trans ds INH x _ TX TI).
  split; intros H s t S T ST; specialize (H s t S T ST).
  - unfold FmlaSpec.steps, meaning in H. rewrite (ev_img_eqc ds) in H by auto. apply Nat.eqb_eq in H. rewrite H. apply Nat.mod_small. auto.
  - unfold FmlaSpec.steps, meaning. rewrite (ev_img_eqc ds) by auto. apply Nat.eqb_eq. rewrite Nat.mod_small; auto.
Qed.
Lemma sub_keep : forall v, v < length ds ->
  (FmlaModel.subseteq_ck ds x (img_eq_PFmlaVbl ds v v) = true <-> forall s t, ok s -> ok t -> FmlaSpec.steps x s t -> nth v t 0 = nth v s 0).
Proof.
  intros v V. rewrite (CandProofs.sub_trans ds INH x _ TX (img_eq_trans_fmla ds v v V V)).
  split; intros H s t S T ST; specialize (H s t S T ST).
  - unfold FmlaSpec.steps, meaning in H. rewrite (ev_img_eq ds) in H by auto. apply Nat.eqb_eq in H. rewrite Nat.mod_small in H; [exact H|]. apply (ok_nth ds s v S V).
  - unfold FmlaSpec.steps, meaning. rewrite (ev_img_eq ds) by auto. apply Nat.eqb_eq. rewrite Nat.mod_small; [exact H|]. apply (ok_nth ds s v S V).
Qed.

Lemma guard_value_spec : forall i c, rvbl p i < length ds ->
  (guard_value N mb x i = Some c <->
   (nth (rvbl p i) (vroles N) Direct = Shadow -> c = 0) /\
   (nth (rvbl p i) (vroles N) Direct <> Shadow -> forall s t, ok s -> ok t -> FmlaSpec.steps x s t -> nth (rvbl p i) s 0 = c)).
Proof.
  intros i c V. unfold guard_value. destruct (is_shadow N (rvbl p i)) eqn:SH.
  - apply is_shadow_iff in SH. split.
    + intros E. injection E as <-. split; [auto|]. intros NS. contradiction.
    + intros (H & _). rewrite (H SH). reflexivity.
  - assert (NS : nth (rvbl p i) (vroles N) Direct <> Shadow) by (intros H; apply is_shadow_iff in H; congruence).
    assert (W : wf_ids ds [rvbl p i]) by (constructor; [exact V|constructor]).
    destruct (pick_some x [rvbl p i] W x_sat) as (st & -> & a & j & q & A & J & Q & M & E).
    unfold values in E. cbn [map] in E. subst st.
    assert (ST : FmlaSpec.steps x q j) by (unfold FmlaSpec.steps; exact (proj1 (TX a q j q A Q J Q) M)).
    destruct (FmlaModel.subseteq_ck ds x (eqc_PFmlaVbl ds (rvbl p i) (nth (rvbl p i) q 0))) eqn:B.
    + pose proof (proj1 (sub_eqc _ _ V) B) as U. split.
      * intros E. injection E as <-. split; [intros; contradiction|]. intros _. exact U.
      * intros (_ & H). rewrite (H NS q j Q J ST). reflexivity.
    + split; [discriminate|]. intros (_ & H). exfalso.
      assert (B' : FmlaModel.subseteq_ck ds x (eqc_PFmlaVbl ds (rvbl p i) (nth (rvbl p i) q 0)) = true).
      { apply (sub_eqc _ _ V). intros s t S T ST'. rewrite (H NS s t S T ST'), (H NS q j Q J ST). reflexivity. }
      congruence.
Qed.

Definition keeps (v : nat) : Prop :=
  nth v (vroles N) Direct = Shadow /\ (forall s t, ok s -> ok t -> FmlaSpec.steps x s t -> nth v t 0 = nth v s 0).
Lemma assign_value_spec : forall w c, wvbl N p w < length ds ->
  (assign_value N mb x w = Some c <->
   (keeps (wvbl N p w) -> c = nth (wvbl N p w) ds 0) /\
   (~ keeps (wvbl N p w) -> forall s t, ok s -> ok t -> FmlaSpec.steps x s t -> nth (wvbl N p w) t 0 = c)).
Proof.
  intros w c V. unfold assign_value. set (v := wvbl N p w) in *.
  assert (K : is_shadow N v && FmlaModel.subseteq_ck ds x (img_eq_PFmlaVbl ds v v) = true <-> keeps v).
  { rewrite andb_true_iff, is_shadow_iff, (sub_keep v V). reflexivity. }
  destruct (is_shadow N v && FmlaModel.subseteq_ck ds x (img_eq_PFmlaVbl ds v v)) eqn:B.
  - pose proof (proj1 K eq_refl) as KV. unfold FmlaModel.domsz. split.
    + intros E. injection E as <-. split; [auto|]. intros NK. contradiction.
    + intros (H & _). rewrite (H KV). reflexivity.
  - assert (NK : ~ keeps v) by (intros H; apply K in H; discriminate).
    assert (W : wf_ids ds [v]) by (constructor; [exact V|constructor]).
    assert (SI : FmlaModel.sat_ck ds (img_PFmla ds x) = true).
    { apply (CandProofs.sat_state ds INH _ (img_is_state ds x TX)). destruct SOME as (s & t & S & T & ST). exists t. split; auto.
      apply (img_state ds x t T TX). eauto. }
    destruct (RsynProofs.pick_any N INH _ [v] (img_is_state ds x TX) W SI) as (t0 & T0 & H0 & ->).
    apply (img_state ds x t0 T0 TX) in H0. destruct H0 as (s0 & S0 & ST0).
    unfold values. cbn [map].
    assert (L : nth v t0 0 < nth v ds 0) by (apply (ok_nth ds t0 v T0 V)).
    destruct (FmlaModel.subseteq_ck ds x (img_eqc_PFmlaVbl ds v (nth v t0 0))) eqn:B'.
    + pose proof (proj1 (sub_img_eqc _ _ V L) B') as U. split.
      * intros E. injection E as <-. split; [intros; contradiction|]. intros _. exact U.
      * intros (_ & H). rewrite (H NK s0 t0 S0 T0 ST0). reflexivity.
    + split; [discriminate|]. intros (_ & H). exfalso.
      assert (B2 : FmlaModel.subseteq_ck ds x (img_eqc_PFmlaVbl ds v (nth v t0 0)) = true).
      { apply (sub_img_eqc _ _ V L). intros s t S T ST'. rewrite (H NK s t S T ST'), (H NK s0 t0 S0 T0 ST0). reflexivity. }
      congruence.
Qed.

Lemma all_parsed_nth : forall (f : nat -> option nat) n g, all_parsed (map f (seq 0 n)) = Some g <->
  length g = n /\ forall i, i < n -> f i = Some (nth i g 0).
Proof.
  intros f n g. rewrite all_parsed_spec. split.
  - intros E. assert (L : length g = n) by (apply (f_equal (@length _)) in E; rewrite !map_length, seq_length in E; auto).
    split; auto. intros i Hi. apply (f_equal (fun l => nth i l None)) in E.
    rewrite (nth_indep _ None (f 0)) in E by (rewrite map_length, seq_length; lia). rewrite map_nth, seq_nth in E by lia.
    rewrite (nth_indep _ None (Some 0)) in E by (rewrite map_length; lia). rewrite map_nth in E. exact E.
  - intros (L & H). apply nth_ext with (d := f 0) (d' := Some 0); [rewrite !map_length, seq_length; auto|].
    intros i Hi. rewrite map_length, seq_length in Hi. rewrite !map_nth, seq_nth by lia. apply H. auto.
Qed.

Lemma clash_spec : wf_ids ds (p_vbls p) -> length (p_vbls p) = nr (kind_of N p) -> forall a,
  (clash_of N mb x = Some a <-> looks_like N p (FmlaSpec.steps x) a).
Proof.
  intros WF LEN a.
  assert (RV : forall i, i < nr (kind_of N p) -> rvbl p i < length ds).
  { intros i Hi. unfold FmlaSpec.wf_ids in WF. rewrite Forall_forall in WF. apply WF. unfold rvbl. apply nth_In. lia. }
  assert (WV : forall w, w < nw (kind_of N p) -> wvbl N p w < length ds).
  { intros w Hw. apply RV. unfold nw in Hw. assert (J : In (nth w (wmap (kind_of N p)) 0) (wmap (kind_of N p))) by (apply nth_In; auto).
    unfold wmap in J at 2. apply filter_In in J. destruct J as (J & _). apply in_seq in J. lia. }
  unfold clash_of. split.
  - destruct (all_parsed (map (guard_value N mb x) _)) as [g|] eqn:EG; [|discriminate].
    destruct (all_parsed (map (assign_value N mb x) _)) as [h|] eqn:EH; [|discriminate].
    intros E. injection E as <-. apply all_parsed_nth in EG. apply all_parsed_nth in EH. destruct EG as (LG & HG), EH as (LH & HH).
    constructor; cbn [act_pc vals].
    + reflexivity.
    + rewrite app_length. lia.
    + intros i Hi. rewrite app_nth1 by lia. apply (proj1 (guard_value_spec i (nth i g 0) (RV i Hi))). auto.
    + intros w Hw. cbv zeta. rewrite app_nth2 by lia. replace (nr (kind_of N p) + w - length g) with w by lia.
      apply (proj1 (assign_value_spec w (nth w h 0) (WV w Hw))). auto.
  - intros [K L G A]. destruct a as [k vs]. cbn [act_pc vals] in *. subst k.
    set (n := nr (kind_of N p)) in *. set (m := nw (kind_of N p)) in *.
    assert (EG : all_parsed (map (guard_value N mb x) (seq 0 n)) = Some (firstn n vs)).
    { apply all_parsed_nth. split; [rewrite firstn_length; lia|]. intros i Hi. apply (guard_value_spec i _ (RV i Hi)).
      replace (nth i (firstn n vs) 0) with (nth i vs 0); [apply G; auto|]. rewrite <- (firstn_skipn n vs) at 1. apply app_nth1. rewrite firstn_length. lia. }
    assert (EH : all_parsed (map (assign_value N mb x) (seq 0 m)) = Some (skipn n vs)).
    { apply all_parsed_nth. split; [rewrite skipn_length; lia|]. intros w Hw. apply (assign_value_spec w _ (WV w Hw)).
      replace (nth w (skipn n vs) 0) with (nth (n + w) vs 0).
      - specialize (A w Hw). cbv zeta in A. exact A.
      - rewrite <- (firstn_skipn n vs) at 1. rewrite app_nth2; rewrite firstn_length; [|lia]. f_equal. lia. }
    rewrite EG, EH, firstn_skipn. reflexivity.
Qed.
End Value.

Lemma looks_ext : forall N p R R' a, (forall s t, ok (vdoms N) s -> ok (vdoms N) t -> (R s t <-> R' s t)) -> looks_like N p R a -> looks_like N p R' a.
Proof.
  intros N p R R' a E [K L G A]. constructor; auto.
  - intros i Hi. destruct (G i Hi) as (G1 & G2). split; auto. intros NS s t S T ST. apply (G2 NS s t S T). apply E; auto.
  - intros w Hw. specialize (A w Hw). cbv zeta in *. destruct A as (A1 & A2). split.
    + intros (SH & H). apply A1. split; auto. intros s t S T ST. apply H; auto. apply E; auto.
    + intros NK s t S T ST.
      match type of A2 with (~ ?K -> _) => assert (NK' : ~ K) end.
      { intros (SH & H). apply NK. split; auto. intros s' t' S' T' ST'. apply H; auto. apply E; auto. }
      apply (A2 NK' s t S T). apply E; auto.
Qed.

(** ** The process that stands for the others *)
Lemma own_distinct : forall N p, length (p_vbls p) = nr (kind_of N p) -> NoDup (p_vbls p) -> NoDup (own_wvbls N p).
Proof.
  intros N p L D. assert (O : own_wvbls N p = map (rvbl p) (wmap (kind_of N p))).
  { unfold own_wvbls, wvbl. unfold nw. rewrite <- (map_map (fun w => nth w (wmap (kind_of N p)) 0) (rvbl p)). f_equal.
    apply nth_ext with (d := 0) (d' := 0); [rewrite map_length, seq_length; auto|]. intros i Hi. rewrite map_length, seq_length in Hi.
    rewrite (nth_indep _ 0 (nth 0 (wmap (kind_of N p)) 0)) by (rewrite map_length, seq_length; auto).
    rewrite (map_nth (fun w => nth w (wmap (kind_of N p)) 0)), seq_nth by auto. reflexivity. }
  rewrite O. clear O. assert (W : NoDup (wmap (kind_of N p)) /\ forall i, In i (wmap (kind_of N p)) -> i < length (p_vbls p)).
  { unfold wmap. split; [apply NoDup_filter, seq_NoDup|]. intros i H. apply filter_In in H. destruct H as (H & _). apply in_seq in H. lia. }
  destruct W as (W1 & W2). induction (wmap (kind_of N p)) as [|i l IH]; cbn [map]; [constructor|].
  inversion W1; subst. constructor.
  - intros H. apply in_map_iff in H. destruct H as (j & E & J). unfold rvbl in E.
    assert (j = i) by (apply (NoDup_nth (p_vbls p) 0); auto; apply W2; cbn; auto). subst j. contradiction.
  - apply IH; auto. intros j Hj. apply W2. cbn. auto.
Qed.
Lemma stands_in_spec : forall N mbs, (forall m, In m mbs -> length (p_vbls (m_pc m)) = nr (kind_of N (m_pc m))) ->
  match stands_in N mbs with
  | Some mb => first_unrepeated mbs mb
  | None => forall m, In m mbs -> ~ NoDup (p_vbls (m_pc m))
  end.
Proof.
  intros N mbs L. unfold stands_in. induction mbs as [|m mbs IH]; cbn [find]; [intros m []|].
  assert (EQ : distinct (p_vbls (m_pc m)) && distinct (own_wvbls N (m_pc m)) = true <-> NoDup (p_vbls (m_pc m))).
  { rewrite andb_true_iff, !CandProofs.distinct_iff. split; [tauto|]. intros D. split; auto. apply own_distinct; auto. apply L. cbn. auto. }
  destruct (distinct (p_vbls (m_pc m)) && distinct (own_wvbls N (m_pc m))) eqn:B.
  - exists [], mbs. split; auto. split; [apply EQ; auto|]. intros m' [].
  - assert (ND : ~ NoDup (p_vbls (m_pc m))) by (intros D; apply EQ in D; discriminate).
    specialize (IH (fun m' H => L m' (or_intror H))).
    destruct (find _ mbs) as [mb|].
    + destruct IH as (l1 & l2 & E & D & H). exists (m :: l1), l2. split; [cbn; f_equal; auto|]. split; auto. intros m' [<-|M]; auto.
    + intros m' [<-|M]; auto.
Qed.
Lemma first_once : forall mbs a b, first_unrepeated mbs a -> first_unrepeated mbs b -> a = b.
Proof.
  intros mbs a b (l1 & l2 & E & D & H) (k1 & k2 & E' & D' & H'). subst mbs. revert k1 E' H'. induction l1 as [|x l1 IH]; intros k1 E' H'.
  - destruct k1 as [|y k1]; cbn in E'; injection E' as E1 E2; auto. subst y. exfalso. apply (H' a); cbn; auto.
  - destruct k1 as [|y k1]; cbn in E'; injection E' as E1 E2; [subst x; exfalso; apply (H b); cbn; auto|].
    apply IH with (k1 := k1); auto; intros m M; [apply H|apply H']; cbn; auto.
Qed.

(** ** Reading a file *)
Section Read.
Variable consts : list (string * list Z).
Variable arrays : list (string * list nat).
Lemma pbody_plain : forall h l R R', read_pbody consts arrays h R l = Some R' ->
  read_body consts arrays h (rd_sys R, rd_kind R) (plain_stmts l) = Some (rd_sys R', rd_kind R') /\ rd_conflicts R' = rd_conflicts R.
Proof.
  intros h. induction l as [|st l IH]; intros R R' E; cbn [read_pbody] in E.
  - injection E as <-. split; reflexivity.
  - destruct (read_pstmt consts arrays h R st) as [R1|] eqn:E1; [|discriminate]. destruct (IH _ _ E) as (IH1 & IH2).
    destruct st as [st|as_]; cbn [read_pstmt] in E1.
    + change (plain_stmts (PStmt st :: l)) with (st :: plain_stmts l). cbn [read_body].
      destruct (read_inside consts arrays h (rd_sys R, rd_kind R) st) as [(Y, P)|]; [|discriminate]. cbn [option_map fst snd] in E1. injection E1 as <-. cbn in *. auto.
    + change (plain_stmts (PConflict as_ :: l)) with (plain_stmts l).
      destruct (conflict_actions _ _ _ _ _ _ _ _) as [c|]; [|discriminate]. cbn [option_map] in E1. injection E1 as <-. cbn in *. auto.
Qed.
Lemma pitems_plain : forall ds l Y c Y' Ps, read_pitems consts arrays ds Y c l = Some (Y', Ps) ->
  read_items consts arrays ds Y (without_conflicts l) = Some (Y', map fst Ps) /\ Forall (fun P => snd P = []) Ps.
Proof.
  intros ds. induction l as [|it l IH]; intros Y c Y' Ps E; cbn [read_pitems] in E.
  - injection E as <- <-. split; [reflexivity|constructor].
  - destruct it as [st|h body].
    + change (without_conflicts (POutside st :: l)) with (Outside st :: without_conflicts l). cbn [read_items].
      destruct (read_outside consts arrays ds Y st) as [Y1|]; [|discriminate]. eauto.
    + change (without_conflicts (PInside h body :: l)) with (Inside h (plain_stmts body) :: without_conflicts l). cbn [read_items].
      destruct (read_pbody consts arrays h _ body) as [R|] eqn:ER; [|discriminate].
      destruct (pbody_plain _ _ _ _ ER) as (B1 & B2). cbn [rd_sys rd_kind rd_conflicts] in B1, B2. rewrite B1.
      destruct (read_pitems consts arrays ds (rd_sys R) (rd_conflict R) l) as [(Y1, Q)|] eqn:EI; [|discriminate].
      cbn [option_map fst snd] in E. injection E as <- <-. destruct (IH _ _ _ _ EI) as (I1 & I2). rewrite I1. cbn [option_map fst snd map]. split; auto.
Qed.
End Read.

Lemma no_conflicts_added : forall place net f cs, Forall (fun c => c = []) cs -> add_file_conflicts place net f cs = f.
Proof. intros place net f cs H. unfold add_file_conflicts. replace (concat cs) with (@nil (list act)); auto. induction H as [|c cs -> H IH]; cbn; auto. Qed.
