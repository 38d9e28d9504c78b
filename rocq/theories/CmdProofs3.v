From Coq Require Import String List Arith Bool ZArith Lia.
From Verif Require Import FinLib Radix FmlaModel FmlaSpec FmlaProofs FmlaProofs2 FmlaProofs3 FmlaProofs4
  ActModel NetModel IntModel IntSpec IntProofs ExprModel ExprSpec ExprProofs ExprProofs2 ReachSpec ReachProofs CmdModel CmdSpec CmdProofs2 CmdProofs.
Import ListNotations.
Local Open Scope list_scope.

Section P.
Variables (N : network) (F : file) (idx_name : string) (lets : list (string * list Z)) (preds : list (string * list fmla)) (mb : membr).
Variable G : scope.
Notation ds := (vdoms N).
Hypothesis INH : inhabited ds.
Notation ok := (ok ds).
Notation p := (m_pc mb).
Notation u := (use_of lets preds mb).
Hypothesis DECL : declares ds F (Some u) G.
Notation b := (index_of idx_name mb).
Notation own := (own_wvbls N p).
Hypothesis PROPER : proper_process N p.

Lemma own_read : forall v, In v own -> In v (p_vbls p).
Proof.
  intros v H. unfold own_wvbls in H. apply in_map_iff in H. destruct H as (w & <- & W). unfold wvbl, rvbl. apply nth_In.
  rewrite (pp_length _ _ PROPER). apply in_seq in W. unfold nw in W.
  assert (I : In (nth w (wmap (kind_of N p)) 0) (wmap (kind_of N p))) by (apply nth_In; lia).
  unfold wmap in I at 2. apply filter_In in I. destruct I as (I & _). apply in_seq in I. lia.
Qed.
Lemma own_known : wf_ids ds own.
Proof. apply Forall_forall. intros v H. apply own_read in H. pose proof (pp_known _ _ PROPER) as K. unfold wf_ids in K. rewrite Forall_forall in K. auto. Qed.
Lemma hidden_eq : forall r, hidden ds N r = out_of_sight N r.
Proof.
  intros r. unfold hidden, out_of_sight, all_ids, is_puppet, is_shadow, role_of. destruct r; apply filter_ext; intros v; destruct (nth v (vroles N) Direct); auto.
Qed.
Lemma fixed_eq : forall r, fixed_vbls N mb r = only_read N p r.
Proof.
  intros r. unfold fixed_vbls, only_read. f_equal. apply filter_ext_in. intros i Hi. apply in_seq in Hi. unfold changing. rewrite !negb_orb. f_equal.
  assert (K : rvbl p i < length ds).
  { pose proof (pp_known _ _ PROPER) as K. unfold wf_ids in K. rewrite Forall_forall in K. apply K, nth_In. rewrite (pp_length _ _ PROPER). lia. }
  f_equal. apply iff_eqb. rewrite existsb_exists. split.
  - intros H. exists (rvbl p i). split; [|apply Nat.eqb_refl]. unfold out_of_sight. apply filter_In. split; [apply in_seq; lia|].
    unfold is_puppet, is_shadow, role_of in H. destruct r; destruct (nth (rvbl p i) (vroles N) Direct); auto.
  - intros (v & V & E). apply Nat.eqb_eq in E. subst v. unfold out_of_sight in V. apply filter_In in V. destruct V as (_ & V).
    unfold is_puppet, is_shadow, role_of. destruct r; destruct (nth (rvbl p i) (vroles N) Direct); auto.
Qed.

Lemma parse_means : forall auto r act x, fresh_command (map fst b) act -> any_last (a_assigns act) ->
  parse_action N F idx_name lets preds mb auto r act = Some x ->
  trans_fmla ds x /\ forall s t, ok s -> ok t -> (FmlaSpec.steps x s t <-> action_step N p G b auto act r s t).
Proof.
  intros auto r act x FR LAST E.
  destruct (parse_spec ds INH N F idx_name lets preds mb G eq_refl DECL (pp_once _ _ PROPER) own_known (pp_known _ _ PROPER) (pp_length _ _ PROPER) auto r act x FR LAST E) as (T & H).
  split; auto. intros s t S T'. rewrite (H s t S T'). rewrite hidden_eq, fixed_eq.
  assert (CY : a_cut act = true -> (CmdProofs.raw_step ds N idx_name mb G auto true act = CmdSpec.raw_step N p G b auto act)).
  { intros C. unfold CmdProofs.raw_step, CmdSpec.raw_step. rewrite C. reflexivity. }
  split.
  - intros (H1 & H2 & H3). constructor; auto. intros C. rewrite <- (CY C). auto.
  - intros [H1 H2 H3]. split; [auto|]. split; [|auto]. intros C. rewrite (CY C). auto.
Qed.

(** ** Only the written variables are constrained *)
Lemma parse_defined : forall auto r act x, fresh_command (map fst b) act -> any_last (a_assigns act) ->
  parse_action N F idx_name lets preds mb auto r act = Some x ->
  forall y i e s v, ok s -> In (ASet y i e) (a_assigns act) -> cell G b y i s = Some v -> In v own.
Proof.
  intros auto r act x FR LAST E y i e s v S IN C. unfold parse_action in E.
  destruct (eval_f ds F (Some u) b (a_guard act)) as [(guard, m)|] eqn:EG; [|discriminate].
  destruct (assign_loop _ _ _ _ _ _ _) as [g|] eqn:EL; [|discriminate].
  destruct (before_cut ds INH N F idx_name lets preds mb G eq_refl DECL (pp_once _ _ PROPER) own_known (pp_known _ _ PROPER) auto act guard m g FR LAST EG EL) as (_ & IV).
  destruct (i_def _ _ _ _ _ _ _ _ _ IV y i e IN) as (v' & V & _ & _ & H). rewrite (H s S) in C. injection C as <-. auto.
Qed.

Lemma kept_own : forall cut v, In v (CmdSpec.kept N p cut) -> In v own.
Proof. intros cut v H. unfold CmdSpec.kept in H. apply in_map_iff in H. destruct H as (w & <- & W). apply filter_In in W. apply in_map. tauto. Qed.

Lemma parse_writes : forall auto r act x, fresh_command (map fst b) act -> any_last (a_assigns act) -> a_cut act = false ->
  parse_action N F idx_name lets preds mb auto r act = Some x -> writes_only ds own x.
Proof.
  intros auto r act x FR LAST CUT E. destruct (parse_means auto r act x FR LAST E) as (T & H).
  assert (ONE : forall s t t', ok s -> ok t -> ok t' -> (forall k, In k own -> nth k t 0 = nth k t' 0) ->
    action_step N p G b auto act r s t -> action_step N p G b auto act r s t').
  { intros s t t' S OT OT' AG [(s0 & S0 & R0 & [C1 C2 C3]) A2 A3]. constructor.
    - exists s0. split; auto. split; auto. constructor; auto.
      + intros y i e v IN C. destruct (C2 y i e v IN C) as (z & Z1 & Z2). exists z. split; auto. rewrite <- AG; auto. eapply parse_defined; eauto.
      + intros K v V NA. rewrite <- AG by (eapply kept_own; eauto). auto.
    - rewrite CUT. discriminate.
    - intros AU. destruct (A3 AU) as (v & V & NE). exists v. split; auto. rewrite <- AG; auto. }
  intros a i i' q A I I' Q AG.
  assert (M : forall t, ok t -> (meaning x a t q <-> FmlaSpec.steps x q t)) by (intros t Ot; apply (T a q t q); auto).
  rewrite (M i I), (M i' I'), (H q i Q I), (H q i' Q I'). split; apply ONE; auto. intros k K. symmetry. auto.
Qed.

(** ** Acceptance *)
Lemma lookup_found : forall x l k v, assoc x (g_arrays G) = Some l -> member l k = Some v -> In v (p_vbls p) -> lookup_vbl F (Some u) x k = Some v.
Proof.
  intros x l k v A M V. unfold lookup_vbl. rewrite (d_arrays _ _ _ _ DECL), A. unfold umod_int. unfold member in M. rewrite M.
  cbn [use_of u_rvbls]. replace (existsb (Nat.eqb v) (p_vbls p)) with true; auto. symmetry. apply existsb_exists. exists v. split; auto. apply Nat.eqb_refl.
Qed.
Lemma position_found : forall v l, In v l -> exists j, position v l = Some j.
Proof.
  intros v l. induction l as [|y l IH]; intros H; [destruct H|]. cbn. destruct (Nat.eqb_spec v y); [eauto|].
  destruct H as [->|H]; [contradiction|]. destruct (IH H) as (j & ->). cbn. eauto.
Qed.

Lemma loop_total : forall l g, same_map (g_map g) b ->
  (forall x i e, In (ASet x i e) l -> fresh_indices (map fst b) i /\ (forall e', e = Some e' -> fresh_indices (map fst b) e')) ->
  (forall x i e, In (ASet x i e) l ->
    total_i ds G (fun v => In v (p_vbls p)) b i /\ mentions_vbl G i = false /\
    (exists l, assoc x (g_arrays G) = Some l /\ forall s k v, ok s -> value_of G b i s = Some k -> member l k = Some v ->
       In v (p_vbls p) /\ In v own) /\
    forall e', e = Some e' -> total_i ds G (fun v => In v (p_vbls p)) b e') ->
  exists g', assign_loop N F lets preds mb g l = Some g'.
Proof.
  induction l as [|a l IH]; intros g M FR TOT; cbn [assign_loop]; [eauto|].
  assert (ST : exists g', assign_step N F lets preds mb g a = Some g' /\ same_map (g_map g') b).
  { destruct a as [| |x i e]; cbn [assign_step]; [eexists; split; [reflexivity|auto]..|].
    destruct (FR x i e (or_introl eq_refl)) as (FI & FE). destruct (TOT x i e (or_introl eq_refl)) as (TI & NM & (cells & AR & RD) & TE).
    destruct (accepts ds INH F (Some u) G DECL i (g_map g) b (map fst b) M (keys b) FI) as (_ & AI). destruct (AI TI) as (z & m1 & EI & NV). rewrite EI.
    destruct (sound ds INH F (Some u) G DECL i (g_map g) b (map fst b) M (keys b) FI) as (_ & HI). destruct (HI _ _ EI) as (M1 & (TZ & VZ)).
    destruct (no_vbls_single ds z TZ (NV NM)) as (k & MZ). rewrite MZ.
    destruct (some_state ds INH) as (s0 & S0). pose proof (VZ s0 S0) as V0. rewrite (single ds z k TZ MZ s0 S0) in V0.
    destruct (d_members _ _ _ _ DECL _ _ AR) as (NE & KN). destruct (member_some _ cells k NE) as (v & MV & INV).
    destruct (RD s0 k v S0 V0 MV) as (RV & OV). rewrite (lookup_found x cells k v AR MV RV).
    assert (KV : v < length ds) by (rewrite Forall_forall in KN; auto).
    assert (VALS : exists val m2, match e with None => Some (None, m1) | Some e => option_map (fun r => (Some (fst r), snd r)) (eval_i ds F (Some u) m1 e) end = Some (val, m2) /\ same_map m2 b /\
       match val with None => True | Some y => table_ok ds y end).
    { destruct e as [e'|]; [|exists None, m1; auto].
      destruct (accepts ds INH F (Some u) G DECL e' m1 b (map fst b) M1 (keys b) (FE e' eq_refl)) as (_ & AE). destruct (AE (TE e' eq_refl)) as (y & m2 & EE & _).
      destruct (sound ds INH F (Some u) G DECL e' m1 b (map fst b) M1 (keys b) (FE e' eq_refl)) as (_ & HE). destruct (HE _ _ EE) as (M2 & (TY & _)).
      rewrite EE. cbn. exists (Some y), m2. auto. }
    destruct VALS as (val & m2 & -> & M2 & TV). destruct (position_found v own OV) as (w & ->).
    destruct (g_wild g); [eexists; split; [reflexivity|auto]|]. destruct val as [y|]; [|eexists; split; [reflexivity|auto]].
    destruct (set_vbl_spec ds INH N (g_xn g) v y eq_refl KV TV) as (xn & -> & _). eexists. split; [reflexivity|auto]. }
  destruct ST as (g' & -> & M'). apply IH; auto.
  - intros x i e H. exact (FR x i e (or_intror H)).
  - intros x i e H. exact (TOT x i e (or_intror H)).
Qed.

Lemma cut_total : forall r act guard m g auto, fresh_command (map fst b) act -> any_last (a_assigns act) ->
  eval_f ds F (Some u) b (a_guard act) = Some (guard, m) ->
  assign_loop N F lets preds mb (mkProgress guard (repeat false (nw (kind_of N p))) false auto false m) (a_assigns act) = Some g ->
  exists y, cut_cycles N mb r (redraw N mb guard (keep_rest N mb (a_cut act) g)) = Some y.
Proof.
  intros r act guard m g auto FR LAST EG EL.
  destruct (before_cut ds INH N F idx_name lets preds mb G eq_refl DECL (pp_once _ _ PROPER) own_known (pp_known _ _ PROPER) auto act guard m g FR LAST EG EL) as (B & _).
  destruct (cut_spec ds INH N mb eq_refl (pp_known _ _ PROPER) (pp_length _ _ PROPER) r _ _ B) as (y & E & _). eauto.
Qed.
Lemma parse_total : forall auto r act, fresh_command (map fst b) act -> any_last (a_assigns act) -> total_action N p G b act ->
  exists x, parse_action N F idx_name lets preds mb auto r act = Some x.
Proof.
  intros auto r act FR LAST (TG & TA). destruct FR as (FG & FA). unfold parse_action.
  destruct (accepts ds INH F (Some u) G DECL (a_guard act) b b (map fst b) (fun x => eq_refl) (keys b) FG) as (AG & _). destruct (AG TG) as (guard & m & EG). rewrite EG.
  destruct (sound ds INH F (Some u) G DECL (a_guard act) b b (map fst b) (fun x => eq_refl) (keys b) FG) as (H & _). destruct (H _ _ EG) as (M & _).
  destruct (loop_total (a_assigns act) (mkProgress guard (repeat false (nw (kind_of N p))) false auto false m) M FA TA) as (g & EL). rewrite EL.
  destruct (a_cut act) eqn:C; [|eauto]. destruct (cut_total r act guard m g auto (conj FG FA) LAST EG EL) as (y & EY). rewrite C in EY. rewrite EY. eauto.
Qed.
End P.
