From Coq Require Import String List Arith Bool ZArith Lia.
From Verif Require Import FinLib Radix FmlaModel FmlaSpec FmlaProofs FmlaProofs2 FmlaProofs3 FmlaProofs4
  ActModel NetModel IntModel IntSpec ExprModel ExprSpec ReachSpec ReachProofs CmdModel CmdSpec CmdProofs2 CmdProofs CmdProofs3.
Import ListNotations.
Local Open Scope list_scope.

Lemma all_parsed_spec : forall A (l : list (option A)) r, all_parsed l = Some r <-> l = map Some r.
Proof.
  intros A l. induction l as [|[x|] l IH]; intros r; cbn.
  - split; [intros E; injection E as <-; auto|]. destruct r; [auto|discriminate].
  - destruct (all_parsed l) as [r'|].
    + cbn. split; intros E.
      * injection E as <-. cbn. f_equal. apply IH. auto.
      * destruct r as [|y r]; [discriminate|]. cbn in E. injection E as -> E. apply IH in E. injection E as ->. auto.
    + cbn. split; [discriminate|]. destruct r as [|y r]; [discriminate|]. intros E. cbn in E. injection E as -> E. apply IH in E. discriminate.
  - split; [discriminate|]. destruct r; discriminate.
Qed.

Lemma f2_in : forall A B (R : A -> B -> Prop) l l', Forall2 R l l' -> Forall2 (fun a b => In a l /\ R a b) l l'.
Proof.
  intros A B R l l' H.
  assert (K : forall L, incl l L -> Forall2 (fun a b => In a L /\ R a b) l l').
  { induction H as [|a b l l' AB H IH]; intros L I; constructor; [split; [apply I; left|]; auto|]. apply IH. intros y Y. apply I. right. auto. }
  apply K, incl_refl.
Qed.
Lemma f2_impl : forall A B (R R' : A -> B -> Prop) l l', Forall2 R l l' -> (forall a b, R a b -> R' a b) -> Forall2 R' l l'.
Proof. intros A B R R' l l' H I. induction H; constructor; auto. Qed.

Section P.
Variables (N : network) (F : file) (idx_name : string) (lets : list (string * list Z)) (preds : list (string * list fmla)).
Notation ds := (vdoms N).
Hypothesis INH : inhabited ds.
Notation ok := (ok ds).
Notation parse := (parse_action N F idx_name lets preds).

Lemma parsed_each : forall mbs auto r act f xs, parse_actions N F idx_name lets preds mbs auto r act = Some (f, xs) ->
  Forall2 (fun mb x => parse mb auto r act = Some x) mbs xs /\
  f = fold_left (fun f mx => or_PFmla f (and_PFmla (snd mx) (mask_of N (m_pc (fst mx))))) (combine mbs xs) (Cst false).
Proof.
  intros mbs auto r act f xs E. unfold parse_actions in E.
  destruct (all_parsed (map (fun mb => parse mb auto r act) mbs)) as [ys|] eqn:A; [|discriminate]. cbn in E. injection E as <- <-. split; auto.
  apply all_parsed_spec in A. revert ys A. induction mbs as [|mb mbs IH]; intros [|y ys] A; try discriminate; constructor; cbn in A; injection A as A1 A2; auto.
Qed.

Lemma in_combine2 : forall A B (R : A -> B -> Prop) l l' a c, Forall2 R l l' -> In (a, c) (combine l l') -> In a l /\ R a c.
Proof.
  intros A B R l l' a c H. induction H as [|x y l l' XY H IH]; intros IN; [destruct IN|]. cbn in IN. destruct IN as [E|IN].
  - injection E as <- <-. split; [left|]; auto.
  - destruct (IH IN). split; [right|]; auto.
Qed.
Lemma in_combine_l2 : forall A B (R : A -> B -> Prop) l l' a, Forall2 R l l' -> In a l -> exists c, In (a, c) (combine l l') /\ R a c.
Proof.
  intros A B R l l' a H. induction H as [|x y l l' XY H IH]; intros IN; [destruct IN|]. destruct IN as [<-|IN].
  - exists y. split; [left|]; auto.
  - destruct (IH IN) as (c & C & RC). exists c. split; [right|]; auto.
Qed.

Lemma union_steps : forall mbs xs f0, wf_ids ds (random_vbls N) -> Forall (fun mb => proper_process N (m_pc mb)) mbs -> forall a i s, ok a -> ok i -> ok s ->
  length mbs = length xs ->
  (eval (fold_left (fun f mx => or_PFmla f (and_PFmla (snd mx) (mask_of N (m_pc (fst mx))))) (combine mbs xs) f0) (join a i s) = true <->
   eval f0 (join a i s) = true \/ exists mb x, In (mb, x) (combine mbs xs) /\ eval x (join a i s) = true /\ agree_off ds (written N (m_pc mb)) i s).
Proof.
  intros mbs xs f0 RK PR a i s A I S. revert xs f0. induction PR as [|mb mbs P PR IH]; intros [|x xs] f0 L; try discriminate.
  - cbn. split; auto. intros [H|(mb & x & [] & _)]; auto.
  - cbn [combine fold_left fst snd]. rewrite IH by (cbn in L; lia). rewrite eval_or, orb_true_iff, eval_and, andb_true_iff. unfold mask_of.
    assert (W : wf_ids ds (written N (m_pc mb))).
    { unfold written. apply Forall_app. split; [|exact RK]. change (map (wvbl N (m_pc mb)) (seq 0 (nw (kind_of N (m_pc mb))))) with (own_wvbls N (m_pc mb)). apply own_known. auto. }
    rewrite (ev_mask ds (written N (m_pc mb)) a i s W A I S). split.
    + intros [[H|(H1 & H2)]|(mb' & x' & IN & H)]; auto; right; [exists mb, x|exists mb', x']; (split; [cbn; auto|auto]).
    + intros [H|(mb' & x' & [E|IN] & H)]; auto; [injection E as <- <-; auto|]. right. eauto.
Qed.

Variable G : membr -> scope.

Section Parsed.
Variables (mbs : list membr) (auto : bool) (r : role) (act : action).
Hypothesis RK : wf_ids ds (random_vbls N).
Hypothesis PR : Forall (fun mb => proper_process N (m_pc mb)) mbs.
Hypothesis DECL : Forall (fun mb => declares ds F (Some (use_of lets preds mb)) (G mb)) mbs.
Hypothesis FRESH : fresh_command [idx_name] act.
Hypothesis LAST : any_last (a_assigns act).
Notation stepm mb s t := (action_step N (m_pc mb) (G mb) (index_of idx_name mb) auto act r s t).

Lemma each_means : forall mb x, In mb mbs -> parse mb auto r act = Some x ->
  trans_fmla ds x /\ forall s t, ok s -> ok t -> (FmlaSpec.steps x s t <-> stepm mb s t).
Proof.
  intros mb x IN E. rewrite Forall_forall in PR, DECL.
  apply (parse_means N F idx_name lets preds mb (G mb) INH (DECL mb IN) (PR mb IN) auto r act x); auto.
Qed.

Lemma union_means : forall f xs, parse_actions N F idx_name lets preds mbs auto r act = Some (f, xs) ->
  trans_fmla ds f /\ forall s t, ok s -> ok t -> (FmlaSpec.steps f s t <->
    exists mb, In mb mbs /\ stepm mb s t /\ agree_off ds (written N (m_pc mb)) t s).
Proof.
  intros f xs E. apply parsed_each in E. destruct E as (E & ->). assert (L : length mbs = length xs) by (clear - E; induction E; cbn; auto).
  assert (K : forall a i s, ok a -> ok i -> ok s ->
     (eval (fold_left (fun f mx => or_PFmla f (and_PFmla (snd mx) (mask_of N (m_pc (fst mx))))) (combine mbs xs) (Cst false)) (join a i s) = true <->
      exists mb, In mb mbs /\ stepm mb s i /\ agree_off ds (written N (m_pc mb)) i s)).
  { intros a i s A I S. rewrite (union_steps mbs xs (Cst false) RK PR a i s A I S L). split.
    - intros [C|(mb & x & IN & H1 & H2)]; [discriminate|]. destruct (in_combine2 _ _ _ _ _ _ _ E IN) as (INM & PE). exists mb. split; auto. split; auto.
      destruct (each_means mb x INM PE) as (T & M). apply M; auto. apply (T a s i s); auto.
    - intros (mb & INM & H1 & H2). right. destruct (in_combine_l2 _ _ _ _ _ _ E INM) as (x & IN & PE). exists mb, x. split; auto. split; auto.
      destruct (each_means mb x INM PE) as (T & M). apply (T a s i s); auto. apply M; auto. }
  split.
  - intros a a' i s A A' I S. unfold meaning. rewrite (K a i s), (K a' i s) by auto. tauto.
  - intros s t S T. unfold FmlaSpec.steps, meaning. apply K; auto.
Qed.
End Parsed.

(** ** One process *)
Lemma add_puppet_spec : forall p x, wf_ids ds (random_vbls N) -> proper_process N p -> trans_fmla ds (p_puppet p) -> trans_fmla ds x ->
  exists y, add_puppet N p x = Some y /\ trans_fmla ds y /\
  forall s t, ok s -> ok t -> (FmlaSpec.steps y s t <-> grown_step N p (FmlaSpec.steps (p_puppet p)) (FmlaSpec.steps x) s t).
Proof.
  intros p x RK P TP TX. unfold add_puppet, grown_step. set (y := or_PFmla (p_puppet p) x).
  assert (W : wf_ids ds (written N p)).
  { unfold written. apply Forall_app. split; [|exact RK]. change (map (wvbl N p) (seq 0 (nw (kind_of N p)))) with (own_wvbls N (m_pc (mkMembr p 0 0%Z))). apply own_known. auto. }
  assert (TY : trans_fmla ds y).
  { apply trans_of_eval. intros a i s A I S. unfold y. rewrite !eval_or. rewrite (trans_eval ds _ TP a i s), (trans_eval ds _ TX a i s) by auto. auto. }
  assert (SY : forall s t, ok s -> ok t -> (FmlaSpec.steps y s t <-> FmlaSpec.steps (p_puppet p) s t \/ FmlaSpec.steps x s t)).
  { intros s t S T. unfold FmlaSpec.steps, meaning, y. rewrite eval_or, orb_true_iff. tauto. }
  destruct (existsb synt_writeonly_ck (accs (kind_of N p))); cbn [andb]; [|exists y; split; auto; split; auto; intros s t S T; rewrite (SY s t S T); intuition discriminate].
  destruct (random_write_exists (kind_of N p)); cbn [negb]; [exists y; split; auto; split; auto; intros s t S T; rewrite (SY s t S T); intuition discriminate|].
  assert (TM : trans_fmla ds (and_PFmla y (mask_of N p))).
  { intros a a' i s A A' I S. unfold meaning. rewrite !eval_and, !andb_true_iff. unfold mask_of. rewrite !(ev_mask ds (written N p)) by auto.
    rewrite (trans_eval ds y TY a i s), (trans_eval ds y TY a' i s) by auto. tauto. }
  destruct (scc_found ds INH _ TM) as (scc & E & ST & H). rewrite E. cbn [option_map]. eexists. split; [reflexivity|].
  assert (NI : forall a i s, ok a -> ok i -> ok s -> eval (nimp_PFmla y scc) (join a i s) = eval y (join s i s) && negb (eval scc (join s s s))).
  { intros a i s A I S. rewrite eval_nimp, (trans_eval ds y TY a i s), (state_eval ds scc ST a i s) by auto. auto. }
  split.
  - intros a a' i s A A' I S. unfold meaning. rewrite (NI a i s), (NI a' i s) by auto. tauto.
  - intros s t S T. unfold FmlaSpec.steps at 1, meaning. rewrite (NI s t s) by auto. rewrite andb_true_iff, negb_true_iff, <- not_true_iff_false.
    specialize (H s S). unfold holds, meaning in H. rewrite H. specialize (SY s t S T). unfold FmlaSpec.steps at 1, meaning at 1 in SY. rewrite SY.
    assert (B : between_cycles (list nat) (xrel ds (and_PFmla y (mask_of N p))) (fun _ => True) s <->
      between_cycles (list nat) (fun s t => ok s /\ ok t /\ (FmlaSpec.steps (p_puppet p) s t \/ FmlaSpec.steps x s t) /\ agree_off ds (written N p) t s) (fun _ => True) s).
    { assert (XR : forall s t, xrel ds (and_PFmla y (mask_of N p)) s t <-> ok s /\ ok t /\ (FmlaSpec.steps (p_puppet p) s t \/ FmlaSpec.steps x s t) /\ agree_off ds (written N p) t s).
      { intros s' t'. unfold xrel. split.
        - intros (S' & T' & K). unfold FmlaSpec.steps, meaning in K. rewrite eval_and, andb_true_iff in K. destruct K as (K1 & K2). unfold mask_of in K2. rewrite (ev_mask ds) in K2 by auto.
          split; auto. split; auto. split; auto. unfold FmlaSpec.steps, meaning. unfold y in K1. rewrite eval_or, orb_true_iff in K1. exact K1.
        - intros (S' & T' & K1 & K2). split; auto. split; auto. unfold FmlaSpec.steps, meaning. rewrite eval_and, andb_true_iff. split.
          + unfold y. rewrite eval_or, orb_true_iff. exact K1.
          + unfold mask_of. apply (ev_mask ds); auto. }
      unfold between_cycles, on_cycle, reaches. pose proof (steps_iff (list nat) _ _ XR) as SI.
      split; intros (c1 & c2 & _ & (n1 & H1) & (n2 & H2) & (n3 & H3) & (n4 & H4)); exists c1, c2; (split; [auto|]); apply SI in H1, H2, H3, H4; eauto 12. }
    rewrite B. tauto.
Qed.

(** ** All of them *)
Lemma specified_iff : forall R R' s t, (forall s t, ok s -> ok t -> (R s t <-> R' s t)) -> (specified N R s t <-> specified N R' s t).
Proof. intros R R' s t H. unfold specified. split; intros (s' & t' & S' & T' & A1 & A2 & K); exists s', t'; do 4 (split; [auto|]); apply H; auto. Qed.
Lemma shadow_spec : forall x, trans_fmla ds x -> forall a i s, ok a -> ok i -> ok s ->
  (eval (proj_shadow N x) (join a i s) = true <-> specified N (FmlaSpec.steps x) s i).
Proof.
  intros x TX a i s A I S. unfold proj_shadow, specified.
  assert (E : filter (is_puppet N) (all_ids ds) = out_of_sight N Shadow) by (rewrite <- hidden_eq; reflexivity).
  rewrite E. apply (smooth_some_spec ds N eq_refl (FmlaSpec.steps x)); auto.
  - unfold wf_ids, out_of_sight. rewrite Forall_forall. intros v V. apply filter_In in V. destruct V as (V & _). apply in_seq in V. lia.
  - intros a' i' s' A' I' S'. rewrite (trans_eval ds x TX a' i' s') by auto. unfold FmlaSpec.steps, meaning. tauto.
Qed.
Lemma shadow_trans : forall x, trans_fmla ds x -> trans_fmla ds (proj_shadow N x).
Proof. intros x TX a a' i s A A' I S. unfold meaning. rewrite !shadow_spec by auto. tauto. Qed.
Lemma or_trans : forall x y, trans_fmla ds x -> trans_fmla ds y -> trans_fmla ds (or_PFmla x y).
Proof.
  intros x y TX TY. apply trans_of_eval. intros a i s A I S. rewrite !eval_or. rewrite (trans_eval ds _ TX a i s), (trans_eval ds _ TY a i s) by auto. auto.
Qed.
Lemma or_steps : forall x y s t, FmlaSpec.steps (or_PFmla x y) s t <-> FmlaSpec.steps x s t \/ FmlaSpec.steps y s t.
Proof. intros x y s t. unfold FmlaSpec.steps, meaning. rewrite eval_or, orb_true_iff. tauto. Qed.

Lemma grown_iff : forall p old R R' s t, (forall s t, ok s -> ok t -> (R s t <-> R' s t)) -> ok s -> ok t ->
  (grown_step N p old R s t <-> grown_step N p old R' s t).
Proof.
  intros p old R R' s t H S T. unfold grown_step.
  assert (XR : forall s t, (ok s /\ ok t /\ (old s t \/ R s t) /\ agree_off ds (written N p) t s) <-> (ok s /\ ok t /\ (old s t \/ R' s t) /\ agree_off ds (written N p) t s)).
  { intros s' t'. split; intros (S' & T' & K & A); rewrite H in K || rewrite <- H in K; auto. }
  assert (B : between_cycles (list nat) (fun s t => ok s /\ ok t /\ (old s t \/ R s t) /\ agree_off ds (written N p) t s) (fun _ => True) s <->
              between_cycles (list nat) (fun s t => ok s /\ ok t /\ (old s t \/ R' s t) /\ agree_off ds (written N p) t s) (fun _ => True) s).
  { unfold between_cycles, on_cycle, reaches. pose proof (steps_iff (list nat) _ _ XR) as SI.
    split; intros (c1 & c2 & _ & (n1 & H1) & (n2 & H2) & (n3 & H3) & (n4 & H4)); exists c1, c2; (split; [auto|]); apply SI in H1, H2, H3, H4; eauto 12. }
  rewrite B, (H s t S T). tauto.
Qed.

Lemma add_to_spec : forall r m x R, wf_ids ds (random_vbls N) -> proper_process N (m_pc m) -> grown_so_far N m -> trans_fmla ds x ->
  (forall s t, ok s -> ok t -> (FmlaSpec.steps x s t <-> R s t)) ->
  exists p', add_to N r (m_pc m) x = Some p' /\ let m' := mkMembr p' (m_number m) (m_index m) in member_grown N r R m m' /\ grown_so_far N m'.
Proof.
  intros r m x R RK P (TP & TS) TX XR. unfold add_to.
  set (sh := match r with Puppet => p_shadow (m_pc m) | _ => or_PFmla (p_shadow (m_pc m)) (proj_shadow N x) end).
  assert (SH : trans_fmla ds sh /\ forall s t, ok s -> ok t -> (FmlaSpec.steps sh s t <-> FmlaSpec.steps (p_shadow (m_pc m)) s t \/ (r <> Puppet /\ specified N R s t))).
  { assert (K : trans_fmla ds (or_PFmla (p_shadow (m_pc m)) (proj_shadow N x)) /\ forall s t, ok s -> ok t ->
       (FmlaSpec.steps (or_PFmla (p_shadow (m_pc m)) (proj_shadow N x)) s t <-> FmlaSpec.steps (p_shadow (m_pc m)) s t \/ specified N R s t)).
    { split; [apply or_trans; auto; apply shadow_trans; auto|]. intros s t S T. rewrite or_steps. unfold FmlaSpec.steps at 2, meaning at 1.
      rewrite shadow_spec by auto. rewrite (specified_iff _ _ s t XR). tauto. }
    destruct K as (K1 & K2). unfold sh. destruct r.
    - split; auto. intros s t S T. rewrite K2 by auto. intuition discriminate.
    - split; auto. intros s t S T. rewrite K2 by auto. intuition discriminate.
    - split; auto. intros s t S T. intuition. }
  destruct SH as (SH1 & SH2).
  assert (PU : exists pu, (match r with Shadow => Some (p_puppet (m_pc m)) | _ => add_puppet N (m_pc m) x end) = Some pu /\ trans_fmla ds pu /\
    forall s t, ok s -> ok t -> (FmlaSpec.steps pu s t <-> match r with Shadow => FmlaSpec.steps (p_puppet (m_pc m)) s t
       | _ => grown_step N (m_pc m) (FmlaSpec.steps (p_puppet (m_pc m))) R s t end)).
  { destruct (add_puppet_spec (m_pc m) x RK P TP TX) as (y & E & TY & H).
    destruct r; [exists y|exists (p_puppet (m_pc m))|exists y]; (split; [auto|]); (split; [auto|]); intros s t S T; try tauto; rewrite H by auto; apply grown_iff; auto. }
  destruct PU as (pu & -> & TPU & HPU). cbn [option_map]. eexists. split; [reflexivity|]. cbn zeta. split.
  - constructor; cbn; auto.
  - split; cbn; auto.
Qed.

Section Add.
Variables (mbs : list membr) (act : action).
Hypothesis RK : wf_ids ds (random_vbls N).
Hypothesis PR : Forall (fun mb => proper_process N (m_pc mb)) mbs.
Hypothesis DECL : Forall (fun mb => declares ds F (Some (use_of lets preds mb)) (G mb)) mbs.
Hypothesis FRESH : fresh_command [idx_name] act.
Hypothesis LAST : any_last (a_assigns act).
Notation stepm auto r mb := (action_step N (m_pc mb) (G mb) (index_of idx_name mb) auto act r).

Lemma zip_parsed : forall (P : membr -> Prop) auto r f xs, parse_actions N F idx_name lets preds mbs auto r act = Some (f, xs) -> Forall P mbs ->
  Forall2 (fun mb x => P mb /\ proper_process N (m_pc mb) /\ trans_fmla ds x /\ forall s t, ok s -> ok t -> (FmlaSpec.steps x s t <-> stepm auto r mb s t)) mbs xs.
Proof.
  intros P auto r f xs E H. apply parsed_each in E. destruct E as (E & _).
  rewrite Forall_forall in H. apply (f2_impl _ _ _ _ _ _ (f2_in _ _ _ _ _ E)). intros mb x (IM & PE).
  split; [apply H; auto|]. split; [rewrite Forall_forall in PR; auto|]. apply (each_means mbs auto r act PR DECL FRESH LAST mb x IM PE).
Qed.

Lemma add_spec : forall r T, trans_fmla ds (t_direct T) -> trans_fmla ds (t_shadow T) -> Forall (grown_so_far N) mbs ->
  (forall mb, In mb mbs -> total_action N (m_pc mb) (G mb) (index_of idx_name mb) act) \/ add_action N F idx_name lets preds mbs r act T <> None ->
  exists mbs' T', add_action N F idx_name lets preds mbs r act T = Some (mbs', T') /\
  Forall2 (fun m m' => member_grown N r (stepm true r m) m m' /\ grown_so_far N m') mbs mbs' /\
  trans_fmla ds (t_direct T') /\ trans_fmla ds (t_shadow T') /\
  let all s t := exists mb, In mb mbs /\ stepm true r mb s t /\ agree_off ds (written N (m_pc mb)) t s in
  forall s t, ok s -> ok t ->
  (FmlaSpec.steps (t_direct T') s t <-> FmlaSpec.steps (t_direct T) s t \/ (r <> Shadow /\ all s t)) /\
  (FmlaSpec.steps (t_shadow T') s t <-> FmlaSpec.steps (t_shadow T) s t \/ (r <> Puppet /\ specified N all s t /\ ~ agree_off ds (out_of_sight N Shadow) t s)).
Proof.
  intros r T TD TS SF OKA.
  assert (PA : exists f xs, parse_actions N F idx_name lets preds mbs true r act = Some (f, xs)).
  { destruct OKA as [TOT|NE].
    - unfold parse_actions. assert (E : exists xs, all_parsed (map (fun mb => parse mb true r act) mbs) = Some xs).
      { assert (E : exists xs, map (fun mb => parse mb true r act) mbs = map Some xs).
        { rewrite Forall_forall in PR, DECL. assert (I : incl mbs mbs) by apply incl_refl. revert I. generalize mbs at 1 3. intros l. induction l as [|mb l IH]; intros I; [exists []; auto|].
          destruct IH as (xs & E); [intros y Y; apply I; right; auto|]. assert (IM : In mb mbs) by (apply I; left; auto).
          destruct (parse_total N F idx_name lets preds mb (G mb) INH (DECL mb IM) (PR mb IM) true r act FRESH LAST (TOT mb IM)) as (x & EX).
          exists (x :: xs). cbn. rewrite EX, E. auto. }
        destruct E as (xs & E). exists xs. apply all_parsed_spec. auto. }
      destruct E as (xs & ->). cbn. eauto.
    - unfold add_action in NE. destruct (parse_actions N F idx_name lets preds mbs true r act) as [(f, xs)|]; [eauto|contradiction]. }
  destruct PA as (f & xs & PA). pose proof (zip_parsed (grown_so_far N) true r f xs PA SF) as Z.
  destruct (union_means mbs true r act RK PR DECL FRESH LAST f xs PA) as (TF & SFM).
  unfold add_action. rewrite PA.
  assert (M : exists mbs', all_parsed (map (fun mx => option_map (fun p => mkMembr p (m_number (fst mx)) (m_index (fst mx))) (add_to N r (m_pc (fst mx)) (snd mx))) (combine mbs xs)) = Some mbs' /\
     Forall2 (fun m m' => member_grown N r (stepm true r m) m m' /\ grown_so_far N m') mbs mbs').
  { assert (M : exists mbs', map (fun mx => option_map (fun p => mkMembr p (m_number (fst mx)) (m_index (fst mx))) (add_to N r (m_pc (fst mx)) (snd mx))) (combine mbs xs) = map Some mbs' /\
       Forall2 (fun m m' => member_grown N r (stepm true r m) m m' /\ grown_so_far N m') mbs mbs').
    { clear - Z RK INH. induction Z as [|m x l l' (SF & P & TX & X) Z IH]; [exists []; split; [auto|constructor]|]. destruct IH as (ms & E & H).
      destruct (add_to_spec r m x _ RK P SF TX X) as (p' & EP & H1 & H2). exists (mkMembr p' (m_number m) (m_index m) :: ms). split.
      - cbn [combine map fst snd]. rewrite EP, E. auto.
      - constructor; auto. }
    destruct M as (mbs' & E & H). exists mbs'. split; auto. apply all_parsed_spec. auto. }
  destruct M as (mbs' & -> & M). eexists _, _. split; [reflexivity|]. split; [auto|]. cbn [t_direct t_shadow].
  assert (NI : forall a i s, ok a -> ok i -> ok s ->
     (eval (nimp_PFmla (proj_shadow N f) (proj_shadow N (identity_xn ds))) (join a i s) = true <->
      specified N (FmlaSpec.steps f) s i /\ ~ agree_off ds (out_of_sight N Shadow) i s)).
  { intros a i s A I S. rewrite eval_nimp, andb_true_iff, negb_true_iff, <- not_true_iff_false. rewrite (shadow_spec f TF a i s A I S).
    assert (TI : trans_fmla ds (identity_xn ds)).
    { intros a1 a2 i1 s1 A1 A2 I1 S1. unfold meaning. rewrite !ev_identity by auto. tauto. }
    rewrite (shadow_spec _ TI a i s A I S).
    assert (Q : specified N (FmlaSpec.steps (identity_xn ds)) s i <-> agree_off ds (out_of_sight N Shadow) i s).
    { unfold specified, FmlaSpec.steps, meaning. split.
      - intros (s' & t' & S' & T' & A1 & A2 & K). rewrite (ev_identity ds) in K by auto. rewrite (agree_nil ds t' s') in A2 by auto. intros k KL KN. rewrite <- (A2 k KL KN), (A1 k KL KN). auto.
      - intros AG. exists s, s. do 2 (split; [auto|]). split; [intros k KL KN; auto|]. split; [intros k KL KN; symmetry; apply AG; auto|]. apply (ev_identity ds); auto. intros k KL KN; auto. }
    rewrite Q. tauto. }
  assert (TN : trans_fmla ds (nimp_PFmla (proj_shadow N f) (proj_shadow N (identity_xn ds)))).
  { intros a a' i s A A' I S. unfold meaning. rewrite (NI a i s), (NI a' i s) by auto. tauto. }
  split; [destruct r; auto; apply or_trans; auto|]. split; [destruct r; auto; apply or_trans; auto|].
  cbn zeta. intros s t S OT. set (all := fun s t => exists mb, In mb mbs /\ stepm true r mb s t /\ agree_off ds (written N (m_pc mb)) t s).
  assert (ALL : forall s t, ok s -> ok t -> (FmlaSpec.steps f s t <-> all s t)) by (intros; apply SFM; auto).
  assert (N1 : FmlaSpec.steps (nimp_PFmla (proj_shadow N f) (proj_shadow N (identity_xn ds))) s t <-> specified N all s t /\ ~ agree_off ds (out_of_sight N Shadow) t s).
  { rewrite <- (specified_iff _ _ s t ALL). apply (NI s t s); auto. }
  split.
  - destruct r; rewrite ?or_steps, ?(ALL s t S OT); intuition discriminate.
  - destruct r; rewrite ?or_steps, ?N1; intuition discriminate.
Qed.

Lemma mark_spec : forall (forbidden : bool) mbs', (if forbidden then forbid_action else permit_action) N F idx_name lets preds mbs act = Some mbs' ->
  Forall2 (fun m m' => member_marked N forbidden (stepm false Puppet m) m m') mbs mbs'.
Proof.
  intros fb mbs' E.
  assert (PA : exists f xs, parse_actions N F idx_name lets preds mbs false Puppet act = Some (f, xs)).
  { unfold forbid_action, permit_action in E. destruct fb; destruct (parse_actions N F idx_name lets preds mbs false Puppet act) as [(f, xs)|]; try discriminate; eauto. }
  destruct PA as (f & xs & PA). pose proof (zip_parsed (fun _ => True) false Puppet f xs PA (proj2 (Forall_forall _ _) (fun _ _ => I))) as Z.
  assert (E' : mbs' = map (fun mx => let p := m_pc (fst mx) in
      mkMembr (mkProcess (p_kind p) (p_vbls p) (p_assume p) (p_puppet p) (p_shadow p) (if fb then p_permit p else or_PFmla (p_permit p) (snd mx)) (if fb then or_PFmla (p_forbid p) (snd mx) else p_forbid p))
        (m_number (fst mx)) (m_index (fst mx))) (combine mbs xs)) by (destruct fb; unfold forbid_action, permit_action in E; rewrite PA in E; cbn in E; injection E as <-; auto).
  subst mbs'. clear E PA PR DECL. induction Z as [|m x l l' (_ & P & TX & X) Z IH]; [constructor|]. cbn [combine map]. constructor; [|apply IH].
  constructor; cbn; auto 10.
  - intros s t S T. destruct fb; rewrite ?or_steps, ?(X s t S T); intuition discriminate.
  - intros s t S T. destruct fb; rewrite ?or_steps, ?(X s t S T); intuition discriminate.
Qed.
End Add.
End P.
