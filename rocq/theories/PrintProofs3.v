(** Actions in the output file: they are accepted when they are read back. *)
From Coq Require Import String List Arith Bool ZArith Lia.
From Verif Require FmlaProofs.
From Verif Require Import ParseModel ParseSpec ParseProofs ParseProofs2 ParseProofs3 AccessModel AccessSpec AccessProofs AccessProofs2 PrintModel PrintProofs FmlaModel FmlaSpec IntModel IntSpec ExprModel ExprSpec ExprProofs
  ActModel ActSpec ActProofs ActProofs2 ActProofs4 NetModel NetSpec NetProofs CmdModel CmdSpec PrintSpec PrintProofs2.
Import ListNotations.
Local Open Scope list_scope.

Lemma some_state : forall ds, inhabited ds -> exists s0, ok ds s0.
Proof.
  intros ds H. exists (map (fun _ => 0) ds). unfold inhabited in H. unfold ok. induction H as [|d ds H _ IH]; cbn [map]; constructor; auto.
Qed.

Section Total.
Variable ds : list nat.
Hypothesis INH : inhabited ds.
Variable F : file.
Variable P : option pcuse.
Variable G : scope.
Hypothesis D : declares ds F P G.
Variable reads : nat -> Prop.
Lemma index_total : forall e m b used z m', same_map m b -> (forall x, assoc x b <> None -> In x used) -> arith e -> vbl_free (f_arrays F) e ->
  eval_i ds F P m e = Some (z, m') -> total_i ds G reads b e /\ mentions_vbl G e = false.
Proof.
  induction e as [x|n|a IHa|a IHa|a IHa|a IHa c IHc|a IHa c IHc|a IHa c IHc|a IHa c IHc|a IHa c IHc|r a IHa c IHc|q x n IHn body IHb|a IHa|op a IHa c IHc|c IHc a IHa d IHd|x i IHi];
    intros m b used z m' M U A V E; try contradiction; pose proof E as E0; rewrite evali_eq in E; cbn [arith vbl_free total_i mentions_vbl] in *.
  - split; auto. rewrite (named_int ds F P G D m b x M) in E. destruct (int_named G b x); [discriminate|discriminate].
  - auto.
  - eapply IHa; eauto.
  - destruct (eval_i ds F P m a) as [[y m1]|] eqn:E1; [|discriminate]. eapply IHa; eauto.
  - destruct A as [A1 A2], V as [V1 V2]. destruct (eval_i ds F P m a) as [[y m1]|] eqn:E1; [|discriminate]. destruct (eval_i ds F P m1 c) as [[y2 m2]|] eqn:E2; [|discriminate].
    destruct (sound ds INH F P G D a m b used M U (arith_fresh a used A1)) as [_ S1]. destruct (S1 _ _ E1) as [M1 [_ V11]].
    destruct (IHa _ _ _ _ _ M U A1 V1 E1) as [T1 N1]. destruct (IHc _ _ _ _ _ M1 U A2 V2 E2) as [T2 N2]. rewrite N1, N2. split; [|auto]. split; auto. split; auto.
    intros s x0 y0 OK X Y. destruct (sound ds INH F P G D (SBin op a c) m b used M U (arith_fresh (SBin op a c) used (conj A1 A2))) as [_ S]. destruct (S _ _ E0) as [_ [_ W]].
    specialize (W s OK). cbn [value_of] in W. rewrite X, Y in W. rewrite W. discriminate.
  - destruct V as [V1 V2]. pose proof (d_arrays _ _ _ _ D) as DA. rewrite DA in V1. rewrite V1. destruct (eval_i ds F P m i) as [[y m1]|] eqn:E1; [|discriminate]. destruct (IHi _ _ _ _ _ M U A V2 E1) as [T N1].
    split; auto. split; auto. split; auto. destruct (i_map y) as [|k [|]]; try discriminate. rewrite (d_consts _ _ _ _ D) in E. destruct (assoc x (g_consts G)); [discriminate|].
    unfold lookup_vbl in E. rewrite DA, V1 in E. discriminate.
Qed.
End Total.

Section Declared.
Variable ds : list nat.
Hypothesis INH : inhabited ds.
Variable F : file.
Variable idx : string.
Variable lets : list (string * list Z).
Variable preds : list (string * list fmla).
Lemma evaluated : forall sls ms ms', add_accesses ds F idx lets preds ms sls = Some ms' ->
  Forall2 (fun d d' => d_number d' = d_number d /\ d_index d' = d_index d /\
    Forall (fun sl => exists d1, d_number d1 = d_number d /\ d_index d1 = d_index d /\ slot_vbl ds F idx lets preds d1 sl <> None) sls) ms ms'.
Proof.
  induction sls as [|sl sls IH]; intros ms ms' A.
  - injection A as <-. apply f2_refl. auto.
  - unfold add_accesses in A. cbn [fold_left] in A. destruct (add_access ds F idx lets preds ms sl) as [ms1|] eqn:E1; [|rewrite fold_none in A; discriminate].
    unfold add_access in E1. destruct (assoc (sl_array sl) (f_arrays F)) as [known|]; [|discriminate]. apply all_parsed_some in E1. specialize (IH ms1 ms' A). clear A.
    revert ms1 ms' E1 IH. induction ms as [|d ms IHm]; intros [|d1 ms1] ms' E IH; simpl in E; try discriminate; inversion IH as [|? d2 ? ms2 (Q1 & Q2 & Q3) R]; subst; constructor.
    + injection E as E _. destruct (slot_vbl ds F idx lets preds d sl) as [v|] eqn:V; simpl in E; [|discriminate]. injection E as <-. cbn [d_number d_index] in *. split; auto. split; auto. constructor; auto. exists d. rewrite V. split; auto. split; [auto|discriminate].
    + injection E as _ E. eapply IHm; eauto.
Qed.

(** What the texts of the accesses are good for. *)
Record named (names : list string) (G : scope) (b : imap) (vs : list nat) (sls : list slot) : Prop := mkNamed {
  nm_count : length vs = length sls;
  nm_read : forall i, i < length sls -> raw names (sl_text (nth i sls slot0)) /\ arith (sl_text (nth i sls slot0));
  nm_cell : forall i s, i < length sls -> ok ds s -> cell G b (sl_array (nth i sls slot0)) (sl_text (nth i sls slot0)) s = Some (nth i vs 0);
  nm_total : forall i reads, i < length sls -> total_i ds G reads b (sl_text (nth i sls slot0)) /\ mentions_vbl G (sl_text (nth i sls slot0)) = false
}.
Lemma text_nice : forall names r L sl, plain_pair (r, L) -> readable_pair names (r, L) -> slot_of L r = Some sl ->
  sl_text sl = sl_index sl /\ raw names (sl_text sl) /\ arith (sl_text sl).
Proof.
  intros names [[t x] i] L sl (A & GL & ND) (R & RL & T) S. cbn [fst snd] in *. unfold slot_of in S.
  destruct (expand_arith L false (length L) i GL (depth L) A) as (e' & E1 & A1 & E2). unfold expanded in S. cbn [negb] in E2. rewrite E1, E2 in S. injection S as <-. cbn [sl_text sl_index].
  split; auto. split; auto.
  destruct T as [T|T]; [|apply (raw_expand names L false (length L) GL (depth L)) with (e := i); auto; intros y v Y; split; eauto]. destruct i; try discriminate. rewrite name_expand in E1 by (auto; apply depth). injection E1 as <-.
  destruct (assoc x0 L) eqn:AS; [|exact R]. apply assoc_in in AS. eauto.
Qed.
Lemma f2_nth : forall A B (R : A -> B -> Prop) l l' a b, Forall2 R l l' -> forall i, i < length l -> R (nth i l a) (nth i l' b).
Proof. intros A B R l l' a b H. induction H; intros [|i] L; simpl in *; try lia; auto. apply IHForall2. lia. Qed.
Lemma f2_len : forall A B (R : A -> B -> Prop) l l', Forall2 R l l' -> length l = length l'.
Proof. intros A B R l l' H. induction H; simpl; auto. Qed.
Lemma declared_named : forall (G : nat -> scope) names ts r decls sls ms ms', 
  read_vbls names ts = (decls, r) -> Forall (plain_decl idx) decls -> Forall tight_decl decls ->
  Forall (fun d => d_vbls d = [] /\ declares ds F (Some (mkUse lets preds (d_number d) [])) (G (d_number d))) ms ->
  all_slots decls = Some sls -> Forall (fun sl => vbl_free (f_arrays F) (sl_text sl)) sls -> add_accesses ds F idx lets preds ms sls = Some ms' ->
  Forall (fun d' => named names (G (d_number d')) [(idx, d_index d')] (d_vbls d') sls) ms'.
Proof.
  intros G names ts r decls sls ms ms' R P T DE A VF AA. pose proof (read_vbls_raw names ts decls r R) as RW. destruct (declared_exists decls) as [l L].
  destruct (declared_slots idx decls l L P) as (sls' & A' & F2). rewrite A in A'. injection A' as <-.
  pose proof (declared_plain idx decls l L P) as PP. pose proof (declared_readable names decls l L RW T) as RP.
  assert (D : Forall (fun d => declares ds F (Some (mkUse lets preds (d_number d) [])) (G (d_number d))) ms) by (clear - DE; induction DE as [|d ms (_ & H) _ IH]; constructor; auto).
  pose proof (accesses_mean ds INH F idx lets preds G l sls PP F2 ms ms' D AA) as H. pose proof (evaluated sls ms ms' AA) as EV.
  assert (N : Forall (fun sl => sl_text sl = sl_index sl /\ raw names (sl_text sl) /\ arith (sl_text sl)) sls).
  { clear - F2 PP RP. induction F2 as [|[rr L] sl l sls S F2 IH]; constructor; inversion PP; inversion RP; subst; auto. eapply text_nice; eauto. }
  rewrite Forall_forall in N, VF.
  destruct (some_state ds INH) as [s0 OK0].
  clear A AA. revert DE D EV. induction H as [|d d' ms ms' (E1 & E2 & vs & E3 & E4) H IH]; intros DE D EV; constructor; inversion DE as [|? ? (DE1 & _) DE2]; inversion D as [|? ? D1 D2]; inversion EV as [|? ? ? ? (_ & _ & EV1) EV2]; subst; auto.
  rewrite DE1 in E3. cbn [app] in E3. subst vs. rewrite E1, E2. constructor.
  - destruct (E4 s0 OK0) as [_ Q]. symmetry. eapply f2_len; eauto.
  - intros i I. apply N. apply nth_In; auto.
  - intros i s I OK. destruct (E4 s OK) as [_ Q]. destruct (N (nth i sls slot0) ltac:(apply nth_In; auto)) as (TI & _). rewrite TI. apply (f2_nth _ _ _ _ _ slot0 0 Q i I).
  - intros i reads I. destruct (N (nth i sls slot0) ltac:(apply nth_In; auto)) as (TI & _ & AR). specialize (VF _ (nth_In _ slot0 I)).
    rewrite Forall_forall in EV1. destruct (EV1 _ (nth_In _ slot0 I)) as (d1 & Q1 & Q2 & Q3). unfold slot_vbl in Q3. rewrite <- TI, Q1, Q2 in Q3.
    destruct (eval_i ds F (Some (mkUse lets preds (d_number d) (d_vbls d1))) (set_key idx (d_index d) []) (sl_text (nth i sls slot0))) as [[z m]|] eqn:E; [|congruence].
    apply (index_total ds INH F _ (G (d_number d)) (declares_vbls ds F lets preds _ (d_vbls d1) _ D1) reads _ (set_key idx (d_index d) []) [(idx, d_index d)] [idx] z m); auto.
    + intros y; reflexivity.
    + intros y. cbn. destruct (String.eqb_spec y idx); [auto|contradiction].
Qed.
End Declared.

Section Accepted.
Variable N : network.
Notation ds := (vdoms N).
Hypothesis HN : net_ok N.
Variable p : process.
Hypothesis Hp : In p (pcs N).
Notation K := (kind_of N p).
Variable names : list string.
Variable G : scope.
Variable b : imap.
Variable sls : list slot.
Hypothesis NM : named ds names G b (p_vbls p) sls.
Hypothesis NR : nr K = length sls.
Variable v : list nat.
Notation act := (the_action K sls v).
Lemma seen_small : forall i, In i (seen_ones K) -> i < length sls.
Proof. intros i I. unfold seen_ones in I. apply filter_In in I. destruct I as [I _]. apply in_seq in I. rewrite <- NR. lia. Qed.
Lemma array_named : forall i, i < length sls -> exists l, assoc (sl_array (nth i sls slot0)) (g_arrays G) = Some l /\
  forall s k u, ok ds s -> value_of G b (sl_text (nth i sls slot0)) s = Some k -> member l k = Some u -> u = rvbl p i.
Proof.
  destruct (some_state ds (no_dom _ HN)) as [s0 OK0].
  intros i I. pose proof (nm_cell _ _ _ _ _ _ NM i s0 I OK0) as C. unfold cell in C. destruct (value_of G b (sl_text (nth i sls slot0)) s0); [|discriminate].
  destruct (assoc (sl_array (nth i sls slot0)) (g_arrays G)) as [l|] eqn:A; [|discriminate]. exists l. split; auto. intros s k u OK V M.
  pose proof (nm_cell _ _ _ _ _ _ NM i s I OK) as C'. unfold cell in C'. rewrite V, A, M in C'. injection C' as ->. reflexivity.
Qed.
Lemma in_vbls : forall i, i < length sls -> In (rvbl p i) (p_vbls p).
Proof. intros i I. apply nth_In. rewrite (nm_count _ _ _ _ _ _ NM). auto. Qed.
Lemma test_total : forall i, i < length sls -> total_b ds G (fun u => In u (p_vbls p)) b (test sls v i).
Proof.
  intros i I. destruct (nm_total _ _ _ _ _ _ NM i (fun u => In u (p_vbls p)) I) as [T M]. destruct (array_named i I) as (l & A & R). unfold test, vbl_name. cbn [total_b total_i]. rewrite A.
  split; auto. split; auto. split; auto. intros s k u OK V U. rewrite (R s k u OK V U). apply in_vbls; auto.
Qed.
Lemma tests_total : forall l e, (forall i, In i l -> i < length sls) -> total_b ds G (fun u => In u (p_vbls p)) b e ->
  total_b ds G (fun u => In u (p_vbls p)) b (fold_left (fun e j => SAnd e (test sls v j)) l e).
Proof. induction l as [|i l IH]; intros e H T; [exact T|]. cbn [fold_left]. apply IH; [intros; apply H; right; auto|]. cbn [total_b]. split; [exact T|]. apply test_total. apply H; left; auto. Qed.
Lemma printed_total : total_action N p G b act.
Proof.
  split.
  - cbn [a_guard the_action]. pose proof seen_small as S. unfold all_tests. destruct (seen_ones K) as [|i l]; [cbn; intros s _ X; discriminate X|]. apply tests_total; [intros; apply S; right; auto|]. apply test_total, S. left; auto.
  - intros x i e I. apply in_map_iff in I. destruct I as (w & E & I). apply filter_In in I. destruct I as [I _]. apply in_seq in I. destruct (wmap_nth K w ltac:(lia)) as (J & WJ & PJ).
    unfold assignment_at in E. injection E as E1 E2 E3. set (j := nth w (wmap K) 0) in *. rewrite NR in J. destruct (nm_total _ _ _ _ _ _ NM j (fun u => In u (p_vbls p)) J) as [T M]. rewrite E2 in T, M.
    destruct (array_named j J) as (l & A & R). rewrite E1, E2 in *. split; [exact T|]. split; [exact M|]. split.
    + exists l. split; auto. intros s k u OK V U. rewrite (R s k u OK V U). split; [apply in_vbls; auto|]. apply in_map_iff. exists w. split; [reflexivity|]. apply in_seq. lia.
    + intros e' ->. destruct (random_write_ck (waccess K w)); [discriminate|]. injection E3 as <-. exact Logic.I.
Qed.
Lemma printed_fresh : forall idx, fresh_command [idx] act /\ any_last (a_assigns act).
Proof.
  intros idx. split; [split|].
  - cbn [a_guard the_action]. pose proof seen_small as S. assert (T : forall i, i < length sls -> fresh_indices [idx] (test sls v i)).
    { intros i I. cbn. split; auto. apply arith_fresh. apply (nm_read _ _ _ _ _ _ NM i I). }
    assert (TS : forall l e, (forall i, In i l -> i < length sls) -> fresh_indices [idx] e -> fresh_indices [idx] (fold_left (fun e j => SAnd e (test sls v j)) l e)).
    { induction l as [|i l IH]; intros e H FE; [exact FE|]. cbn [fold_left]. apply IH; [intros; apply H; right; auto|]. cbn [fresh_indices]. split; [exact FE|]. apply T, H. left; auto. }
    unfold all_tests. destruct (seen_ones K) as [|i l]; [cbn; auto|]. apply TS; [intros; apply S; right; auto|]. apply T, S. left; auto.
  - intros x i e I. apply in_map_iff in I. destruct I as (w & E & I). apply filter_In in I. destruct I as [I _]. apply in_seq in I. destruct (wmap_nth K w ltac:(lia)) as (J & _ & _). rewrite NR in J.
    unfold assignment_at in E. injection E as E1 E2 E3. rewrite <- E2. split; [apply arith_fresh, (nm_read _ _ _ _ _ _ NM _ J)|]. intros e' ->. destruct (random_write_ck (waccess K w)); [discriminate|]. injection E3 as <-. cbn. auto.
  - intros l1 l2 E. exfalso. assert (I : In AAnyRest (a_assigns act)) by (rewrite E; apply in_or_app; right; left; auto). apply in_map_iff in I. destruct I as (w & Q & _). discriminate.
Qed.
Lemma printed_back : sees_something N p -> read_action names (action_text K sls v) = Some act.
Proof.
  intros (i & I & V). apply tree_back.
  - intros j J. rewrite NR in J. destruct (nm_read _ _ _ _ _ _ NM j J). split; auto. apply arith_apart; auto.
  - intros E. assert (X : In i (seen_ones K)); [|rewrite E in X; destruct X]. apply filter_In. split; [apply in_seq; split; [lia|exact I]|]. apply visible_iff. exact V.
Qed.
Hypothesis ONCE : NoDup (own_wvbls N p).
Hypothesis AV : action_values K v.
Hypothesis SEES : sees_draws N p.
Lemma printed_moves : forall s t, ok ds s -> ok ds t -> (action_step N p G b true act Puppet s t <-> written_move N p v s t).
Proof.
  intros s t OK OT. apply action_moves; auto.
  - intros i s' I OK'. rewrite NR in I. apply (nm_cell _ _ _ _ _ _ NM i s' I OK').
  - rewrite NR. apply (nm_count _ _ _ _ _ _ NM).
Qed.
End Accepted.
