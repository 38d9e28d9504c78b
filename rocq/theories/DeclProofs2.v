From Coq Require Import String List Arith Bool ZArith Lia.
From Verif Require Import FinLib Radix FmlaModel FmlaSpec FmlaProofs FmlaProofs2 FmlaProofs3 FmlaProofs4
  ActModel NetModel IntModel IntSpec ExprModel ExprSpec ExprProps ReachSpec ReachProofs CmdModel CmdSpec CmdProofs2 CmdProofs CmdProofs3 CmdProofs4 CmdProps
  DeclModel DeclSpec DeclProofs.
Import ListNotations.
Local Open Scope list_scope.

Section Body.
Variables (consts : list (string * list Z)) (arrays : list (string * list nat)) (h : pc_head).
Notation N := (h_net h).
Notation ds := (vdoms N).
Hypothesis INH : inhabited ds.
Hypothesis RK : wf_ids ds (random_vbls N).

Definition scopes : Type := nat -> Z -> scope.
Definition seen_by (Gk : scopes) (m : member) : scope := Gk (m_number (mb_pc m)) (m_index (mb_pc m)).
Definition ix (m : member) : imap := indexed h (mb_pc m).
Definition hides (p : process) : bool := existsb synt_writeonly_ck (accs (kind_of N p)) && negb (random_write_exists (kind_of N p)).
Definition next (Gk : scopes) (st : stmt) : scopes := fun n z => after_inside (Gk n z) [(h_idx h, z)] st.

Record good (Gk : scopes) (Y : sys_state) (P : pc_state) : Prop := mkGood {
  go_decl : forall m, In m (k_membs P) -> declares ds (file_of consts arrays Y) (Some (use_of (h_lets h) (k_preds P) (mb_pc m))) (seen_by Gk m);
  go_proper : forall m, In m (k_membs P) -> proper_process N (m_pc (mb_pc m));
  go_grown : forall m, In m (k_membs P) -> grown_so_far N (mb_pc m);
  go_state : forall m, In m (k_membs P) -> state_fmla ds (p_assume (m_pc (mb_pc m))) /\ state_fmla ds (mb_invariant m);
  go_numbers : map (fun m => m_number (mb_pc m)) (k_membs P) = seq 0 (length (k_membs P));
  go_assume : state_fmla ds (y_assume Y);
  go_inv : state_fmla ds (y_invariant Y);
  go_direct : trans_fmla ds (t_direct (y_totals Y));
  go_shadow : trans_fmla ds (t_shadow (y_totals Y))
}.

Lemma members_eval : forall Gk Y P e pfs, good Gk Y P -> fresh_indices [h_idx h] e -> eval_members consts arrays h Y P e = Some pfs ->
  Forall2 (fun m pf => state_fmla ds pf /\ forall s, ok ds s -> exists v, truth (seen_by Gk m) (ix m) e s = Some v /\ (holds pf s <-> v = true)) (k_membs P) pfs.
Proof.
  intros Gk Y P e pfs GO FR E. apply all_parsed_spec in E. pose proof (go_decl _ _ _ GO) as D. clear GO. revert pfs E. unfold eval_members.
  induction (k_membs P) as [|m l IH]; intros [|pf pfs] E; try discriminate; constructor.
  - cbn [map] in E. injection E as E1 _. destruct (eval_f _ _ _ _ e) as [(pf', m')|] eqn:EV; [|discriminate]. cbn in E1. injection E1 as ->.
    destruct (C68_predicate ds _ _ _ (index_of (h_idx h) (mb_pc m)) e pf m' INH (D m (or_introl eq_refl)) FR EV) as (A & B & _). split; auto.
  - cbn [map] in E. injection E as _ E2. apply IH; auto. intros m' I. apply D. right. auto.
Qed.
Lemma members_total : forall Gk Y P e, good Gk Y P -> fresh_indices [h_idx h] e ->
  (forall m, In m (k_membs P) -> total_b ds (seen_by Gk m) (fun v => In v (p_vbls (m_pc (mb_pc m)))) (ix m) e) -> eval_members consts arrays h Y P e <> None.
Proof.
  intros Gk Y P e GO FR T. assert (E : exists pfs, eval_members consts arrays h Y P e = Some pfs); [|destruct E as (pfs & ->); discriminate].
  pose proof (go_decl _ _ _ GO) as D. clear GO. unfold eval_members. induction (k_membs P) as [|m l IH]; [exists []; reflexivity|].
  destruct IH as (pfs & E); [intros m' I; apply T; right; auto|intros m' I; apply D; right; auto|].
  destruct (C68_accepted ds _ _ _ (index_of (h_idx h) (mb_pc m)) e INH (D m (or_introl eq_refl)) FR) as (A & _).
  specialize (A (T m (or_introl eq_refl))).
  destruct (eval_f ds (file_of consts arrays Y) (Some (use_of (h_lets h) (k_preds P) (mb_pc m))) (index_of (h_idx h) (mb_pc m)) e) as [(pf, m')|] eqn:EV; [|contradiction].
  exists (pf :: pfs). apply all_parsed_spec. cbn [map]. rewrite EV. cbn. f_equal. apply all_parsed_spec. auto.
Qed.

(** ** What a statement changes *)
Record changed (Gk : scopes) (st : stmt) (m m' : member) : Prop := mkChanged {
  ch_same : same_m (mb_pc m) (mb_pc m');
  ch_assume : forall s, ok ds s -> (holds (p_assume (m_pc (mb_pc m'))) s <->
    holds (p_assume (m_pc (mb_pc m))) s /\ assumed (ix m) s (seen_by Gk m) st);
  ch_inv : forall s, ok ds s -> (holds (mb_invariant m') s <-> holds (mb_invariant m) s /\ demanded (ix m) s (seen_by Gk m) st);
  ch_puppet : hides (m_pc (mb_pc m)) = false -> forall s t, ok ds s -> ok ds t ->
    (FmlaSpec.steps (p_puppet (m_pc (mb_pc m'))) s t <-> FmlaSpec.steps (p_puppet (m_pc (mb_pc m))) s t \/ given h (mb_pc m) not_shadow s t (seen_by Gk m) st);
  ch_shadow : forall s t, ok ds s -> ok ds t -> (FmlaSpec.steps (p_shadow (m_pc (mb_pc m'))) s t <->
    FmlaSpec.steps (p_shadow (m_pc (mb_pc m))) s t \/ specified N (fun s t => given h (mb_pc m) not_puppet s t (seen_by Gk m) st) s t);
  ch_permit : forall s t, ok ds s -> ok ds t -> (FmlaSpec.steps (p_permit (m_pc (mb_pc m'))) s t <->
    FmlaSpec.steps (p_permit (m_pc (mb_pc m))) s t \/ permitted h (mb_pc m) s t (seen_by Gk m) st);
  ch_forbid : forall s t, ok ds s -> ok ds t -> (FmlaSpec.steps (p_forbid (m_pc (mb_pc m'))) s t <->
    FmlaSpec.steps (p_forbid (m_pc (mb_pc m))) s t \/ forbidden h (mb_pc m) s t (seen_by Gk m) st)
}.
Definition somebody (P : pc_state) (Gk : scopes) (R : role -> Prop) (st : stmt) (s t : list nat) : Prop :=
  exists m, In m (k_membs P) /\ agree_off ds (written N (m_pc (mb_pc m))) t s /\ given h (mb_pc m) R s t (seen_by Gk m) st.
Record sys_changed (Gk : scopes) (P : pc_state) (st : stmt) (Y Y' : sys_state) : Prop := mkSysChanged {
  sc_preds : y_preds Y' = y_preds Y;
  sc_assume : forall s, ok ds s -> (holds (y_assume Y') s <-> holds (y_assume Y) s /\ forall m, In m (k_membs P) -> assumed (ix m) s (seen_by Gk m) st);
  sc_inv : forall s, ok ds s -> (holds (y_invariant Y') s <-> holds (y_invariant Y) s /\ forall m, In m (k_membs P) -> demanded (ix m) s (seen_by Gk m) st);
  sc_direct : forall s t, ok ds s -> ok ds t -> (FmlaSpec.steps (t_direct (y_totals Y')) s t <->
    FmlaSpec.steps (t_direct (y_totals Y)) s t \/ somebody P Gk not_shadow st s t);
  sc_shadow : forall s t, ok ds s -> ok ds t -> (FmlaSpec.steps (t_shadow (y_totals Y')) s t <->
    FmlaSpec.steps (t_shadow (y_totals Y)) s t \/ (specified N (somebody P Gk not_puppet st) s t /\ ~ agree_off ds (out_of_sight N Shadow) t s))
}.
Lemma never : forall P Gk R st s t, (forall r a, st <> Act r a) -> ~ somebody P Gk R st s t.
Proof. intros P Gk R st s t H (m & _ & _ & X). destruct st; try contradiction. apply (H r a). auto. Qed.
Lemma never_spec : forall P Gk R st s t, (forall r a, st <> Act r a) -> ~ specified N (somebody P Gk R st) s t.
Proof. intros P Gk R st s t H (s' & t' & _ & _ & _ & _ & X). exact (never P Gk R st s' t' H X). Qed.
Lemma never_given : forall m G R st s t, (forall r a, st <> Act r a) -> ~ specified N (fun s t => given h m R s t G st) s t.
Proof. intros m G R st s t H (s' & t' & _ & _ & _ & _ & X). destruct st; try contradiction. apply (H r a). auto. Qed.

(** Nothing changes but what the names stand for *)
Lemma unchanged : forall Gk st m, (forall r a, st <> Act r a) ->
  match st with Assume _ | Legit _ _ | Permit _ | Forbid _ => False | _ => True end -> changed Gk st m m.
Proof.
  intros Gk st m H K. constructor.
  - repeat split; auto.
  - intros s S. destruct st; cbn; tauto.
  - intros s S. destruct st; cbn; tauto.
  - intros _ s t S T. destruct st; cbn; try tauto. exfalso. eapply H. eauto.
  - intros s t S T. split; [tauto|]. intros [X|X]; auto. exfalso. revert X. apply never_given. auto.
  - intros s t S T. destruct st; cbn; tauto.
  - intros s t S T. destruct st; cbn; tauto.
Qed.
Lemma refl_f2 : forall A (R : A -> A -> Prop) l, (forall a, In a l -> R a a) -> Forall2 R l l.
Proof. intros A R l. induction l as [|a l IH]; intros H; constructor; [apply H; left; auto|]. apply IH. intros b I. apply H. right. auto. Qed.

(** After a predicate *)
Lemma declares_next : forall Gk Y P x e pfs m, good Gk Y P -> In m (k_membs P) -> assoc x (g_preds (seen_by Gk m)) = None ->
  Forall2 (fun m pf => state_fmla ds pf /\ forall s, ok ds s -> exists v, truth (seen_by Gk m) (ix m) e s = Some v /\ (holds pf s <-> v = true)) (k_membs P) pfs ->
  declares ds (file_of consts arrays Y) (Some (use_of (h_lets h) (set_key x pfs (k_preds P)) (mb_pc m))) (seen_by (next Gk (Predicate x e)) m).
Proof.
  intros Gk Y P x e pfs m GO I FRESH F2. destruct (go_decl _ _ _ GO m I) as [D1 D2 D3 D4 D5 D6 D7 D8 D9 D10].
  assert (NE : nth_error (k_membs P) (m_number (mb_pc m)) = Some m).
  { apply In_nth_error in I. destruct I as (i & EI). assert (L : i < length (k_membs P)) by (apply nth_error_Some; congruence).
    pose proof (map_nth_error (fun m => m_number (mb_pc m)) i (k_membs P) EI) as M. rewrite (go_numbers _ _ _ GO) in M.
    rewrite (nth_error_nth' _ 0) in M by (rewrite seq_length; auto). rewrite seq_nth in M by auto. injection M as M. cbn in M. rewrite <- M. auto. }
  destruct (f2_nth _ _ _ _ _ F2 _ _ NE) as (pf & NP & ST & TR).
  constructor; cbn; auto.
  - constructor; cbn; auto. split; auto. exists pf. split; auto. split; auto. intros s S. unfold stands_for. destruct (TR s S) as (v & E & HV).
    unfold ix, indexed in E. unfold seen_by in E. rewrite E. auto.
  - intros y. destruct (String.eqb_spec y x) as [->|]; auto.
Qed.

(** ** One statement *)
Variable G0 : scope.
Lemma act_spec : forall Gk Y P r a Y' P', good Gk Y P -> fresh_command [h_idx h] a -> any_last (a_assigns a) ->
  read_inside consts arrays h (Y, P) (Act r a) = Some (Y', P') ->
  good (next Gk (Act r a)) Y' P' /\ Forall2 (changed Gk (Act r a)) (k_membs P) (k_membs P') /\ sys_changed Gk P (Act r a) Y Y'.
Proof.
  intros Gk Y P r a Y' P' GO FR LAST E. cbn [read_inside] in E.
  set (Gm := fun m : membr => Gk (m_number m) (m_index m)).
  destruct (C69_added N (file_of consts arrays Y) (h_idx h) (h_lets h) (k_preds P) Gm (map mb_pc (k_membs P)) r a (y_totals Y) INH RK) as (_ & A); auto.
  { apply Forall_forall. intros m I. apply in_map_iff in I. destruct I as (x & <- & I). apply (go_proper _ _ _ GO). auto. }
  { apply Forall_forall. intros m I. apply in_map_iff in I. destruct I as (x & <- & I). apply (go_decl _ _ _ GO). auto. }
  { apply (go_direct _ _ _ GO). } { apply (go_shadow _ _ _ GO). }
  { apply Forall_forall. intros m I. apply in_map_iff in I. destruct I as (x & <- & I). apply (go_grown _ _ _ GO). auto. }
  destruct (add_action _ _ _ _ _ _ _ _ _) as [(mbs & T)|]; [|discriminate]. injection E as <- <-.
  destruct (A mbs T eq_refl) as (F2 & GR & TD & TS & ST). clear A.
  set (rel := fun m m' => member_grown N r (action_step N (m_pc m) (Gm m) [(h_idx h, m_index m)] true a r) m m') in *.
  assert (F2' : Forall2 (fun (m : member) m' => rel (mb_pc m) m' /\ grown_so_far N m') (k_membs P) mbs).
  { rewrite Forall_forall in GR. clear ST TD TS GO. revert mbs F2 GR. induction (k_membs P) as [|m l IH]; intros mbs F2 GR; inversion F2; subst; constructor; auto.
    - split; auto. apply GR. left. auto.
    - apply IH; auto. intros x I. apply GR. right. auto. }
  assert (CH : Forall2 (fun (m m' : member) => changed Gk (Act r a) m m' /\ grown_so_far N (mb_pc m') /\ (state_fmla ds (p_assume (m_pc (mb_pc m))) -> state_fmla ds (p_assume (m_pc (mb_pc m')))) /\ mb_invariant m' = mb_invariant m)
     (k_membs P) (k_membs (with_pcs P mbs))).
  { unfold with_pcs. cbn [k_membs]. apply (f2_map_combine _ _ _ _ _ _ _ _ F2'). intros m m' I (R & GRM). cbn [fst snd mb_pc mb_invariant].
    destruct R as [R1 R2 R3 R4 (R5 & R6 & R7) R8 R9]. split; [|split; [auto|split; [rewrite R5; auto|auto]]]. constructor; cbn [mb_pc mb_invariant].
    - repeat split; auto.
    - intros s S. rewrite R5. cbn. tauto.
    - intros s S. cbn. tauto.
    - intros HD s t S T'. rewrite (R8 s t S T'). unfold given, not_shadow. unfold seen_by, Gm, indexed. destruct r;
        try solve [split; [auto|intros [X|(X & _)]; [auto|exfalso; apply X; auto]]];
        (unfold grown_step; unfold hides in HD; split;
        [intros ([X|X] & _); auto; right; split; auto; discriminate
        |intros X; split; [destruct X as [X|(_ & X)]; auto|]; intros X1 X2; rewrite X1, X2 in HD; discriminate]).
    - intros s t S T'. rewrite (R9 s t S T'). unfold given, not_puppet. unfold seen_by, Gm, indexed. split; (intros [X|X]; [left; auto|]).
      + destruct X as (NP & s1 & t1 & X1 & X2 & X3 & X4 & X5). right. exists s1, t1. auto 10.
      + destruct X as (s1 & t1 & X1 & X2 & X3 & X4 & NP & X5). right. split; auto. exists s1, t1. auto 10.
    - intros s t S T'. rewrite R6. cbn. tauto.
    - intros s t S T'. rewrite R7. cbn. tauto. }
  assert (ALL : forall R s t, somebody P Gk R (Act r a) s t <-> (R r /\ exists mb, In mb (map mb_pc (k_membs P)) /\ action_step N (m_pc mb) (Gm mb) [(h_idx h, m_index mb)] true a r s t /\ agree_off ds (written N (m_pc mb)) t s)).
  { intros R s t. split.
    - intros (m & I & AG & RR & X). split; auto. exists (mb_pc m). split; [apply in_map; auto|]. split; auto.
    - intros (RR & mb & I & X & AG). apply in_map_iff in I. destruct I as (m & <- & I). exists m. split; auto. split; auto. split; auto. }
  split; [|split].
  - constructor; cbn [y_assume y_invariant y_totals].
    + intros m' I. destruct (f2_exists _ _ _ _ _ CH m' I) as (m & J & C & _). pose proof (go_decl _ _ _ GO m J) as D.
      destruct (ch_same _ _ _ _ C) as (S1 & S2 & S3 & S4). unfold seen_by, next. cbn [after_inside]. rewrite S1, S2.
      replace (use_of (h_lets h) (k_preds (with_pcs P mbs)) (mb_pc m')) with (use_of (h_lets h) (k_preds P) (mb_pc m)); [exact D|].
      unfold use_of. rewrite S1, S4. reflexivity.
    + intros m' I. destruct (f2_exists _ _ _ _ _ CH m' I) as (m & J & C & _). destruct (ch_same _ _ _ _ C) as (_ & _ & S3).
      apply (proper_same _ (m_pc (mb_pc m))); auto. apply (go_proper _ _ _ GO). auto.
    + intros m' I. destruct (f2_exists _ _ _ _ _ CH m' I) as (m & J & C & X & _). auto.
    + intros m' I. destruct (f2_exists _ _ _ _ _ CH m' I) as (m & J & C & _ & X & Y1). destruct (go_state _ _ _ GO m J). rewrite Y1. auto.
    + replace (length (k_membs (with_pcs P mbs))) with (length (k_membs P)) by (clear - CH; induction CH; cbn; auto). rewrite <- (go_numbers _ _ _ GO). clear - CH. induction CH as [|m m' l l' (C & _) CH IH]; cbn; auto.
      f_equal; auto. apply (ch_same _ _ _ _ C).
    + apply (go_assume _ _ _ GO).
    + apply (go_inv _ _ _ GO).
    + auto.
    + auto.
  - apply (f2_impl _ _ _ _ _ _ CH). intros m m' (C & _). auto.
  - constructor; cbn [y_preds y_assume y_invariant y_totals]; auto.
    + intros s S. cbn. split; [intros H; split; auto|tauto].
    + intros s S. cbn. split; [intros H; split; auto|tauto].
    + intros s t S T'. rewrite (proj1 (ST s t S T')), ALL. unfold not_shadow. tauto.
    + intros s t S T'. rewrite (proj2 (ST s t S T')). unfold not_puppet. split; (intros [X|X]; [left; auto|right]).
      * destruct X as (NP & X & Y1). split; auto. destruct X as (s1 & t1 & X1 & X2 & X3 & X4 & X5). exists s1, t1. repeat (split; auto). apply ALL. auto.
      * destruct X as ((s1 & t1 & X1 & X2 & X3 & X4 & X5) & Y1). apply ALL in X5. destruct X5 as (NP & X5). split; auto. split; auto. exists s1, t1. auto 10.
Qed.

Lemma good_same : forall Gk Y P st Y' P', good Gk Y P -> (forall x e, st <> Predicate x e) -> k_preds P' = k_preds P -> y_preds Y' = y_preds Y ->
  Forall2 (fun m m' : member => same_m (mb_pc m) (mb_pc m') /\ (grown_so_far N (mb_pc m) -> grown_so_far N (mb_pc m')) /\
    (state_fmla ds (p_assume (m_pc (mb_pc m))) /\ state_fmla ds (mb_invariant m) -> state_fmla ds (p_assume (m_pc (mb_pc m'))) /\ state_fmla ds (mb_invariant m')))
    (k_membs P) (k_membs P') ->
  state_fmla ds (y_assume Y') -> state_fmla ds (y_invariant Y') -> y_totals Y' = y_totals Y -> good (next Gk st) Y' P'.
Proof.
  intros Gk Y P st Y' P' GO NP KP YP CH A1 A2 A3.
  assert (NX : forall n z, next Gk st n z = Gk n z) by (intros n z; unfold next; destruct st; try reflexivity; exfalso; eapply NP; eauto).
  constructor; auto.
  - intros m' I. destruct (f2_exists _ _ _ _ _ CH m' I) as (m & J & (S1 & S2 & S3 & S4) & _). pose proof (go_decl _ _ _ GO m J) as D.
    unfold seen_by. rewrite NX, S1, S2. unfold file_of. rewrite YP, KP.
    replace (use_of (h_lets h) (k_preds P) (mb_pc m')) with (use_of (h_lets h) (k_preds P) (mb_pc m)); [exact D|].
    unfold use_of. rewrite S1, S4. reflexivity.
  - intros m' I. destruct (f2_exists _ _ _ _ _ CH m' I) as (m & J & (S1 & S2 & S3) & _). apply (proper_same _ (m_pc (mb_pc m))); auto. apply (go_proper _ _ _ GO). auto.
  - intros m' I. destruct (f2_exists _ _ _ _ _ CH m' I) as (m & J & _ & X & _). apply X, (go_grown _ _ _ GO). auto.
  - intros m' I. destruct (f2_exists _ _ _ _ _ CH m' I) as (m & J & _ & _ & X). apply X, (go_state _ _ _ GO). auto.
  - replace (length (k_membs P')) with (length (k_membs P)) by (clear - CH; induction CH; cbn; auto). rewrite <- (go_numbers _ _ _ GO).
    clear - CH. induction CH as [|m m' l l' (C & _) CH IH]; cbn; auto. f_equal; auto. apply C.
  - rewrite A3. apply (go_direct _ _ _ GO).
  - rewrite A3. apply (go_shadow _ _ _ GO).
Qed.
Lemma sys_same : forall Gk P st Y, (forall r a, st <> Act r a) -> (forall e, st <> Assume e) -> (forall md e, st <> Legit md e) -> sys_changed Gk P st Y Y.
Proof.
  intros Gk P st Y H1 H2 H3. constructor; auto.
  - intros s S. split; [|tauto]. intros X. split; auto. intros m I. destruct st; try exact Logic.I. exfalso. eapply H2. eauto.
  - intros s S. split; [|tauto]. intros X. split; auto. intros m I. destruct st; try exact Logic.I. exfalso. eapply H3. eauto.
  - intros s t S T. split; auto. intros [X|X]; auto. exfalso. revert X. apply never. auto.
  - intros s t S T. split; auto. intros [X|(X & _)]; auto. exfalso. revert X. apply never_spec. auto.
Qed.

Lemma mark_step : forall (fb : bool) Gk Y P a Y' P', let st := if fb then Forbid a else Permit a in good Gk Y P -> fresh_command [h_idx h] a -> any_last (a_assigns a) ->
  read_inside consts arrays h (Y, P) st = Some (Y', P') ->
  good (next Gk st) Y' P' /\ Forall2 (changed Gk st) (k_membs P) (k_membs P') /\ sys_changed Gk P st Y Y'.
Proof.
  intros fb Gk Y P a Y' P' st GO FR LAST E.
  set (Gm := fun m : membr => Gk (m_number m) (m_index m)).
  assert (A : forall mbs, (if fb then forbid_action else permit_action) N (file_of consts arrays Y) (h_idx h) (h_lets h) (k_preds P) (map mb_pc (k_membs P)) a = Some mbs ->
     Forall2 (fun m m' => member_marked N fb (action_step N (m_pc m) (Gm m) [(h_idx h, m_index m)] false a Puppet) m m') (map mb_pc (k_membs P)) mbs).
  { intros mbs EM. apply (C69_marked N (file_of consts arrays Y) (h_idx h) (h_lets h) (k_preds P) Gm (map mb_pc (k_membs P)) fb a mbs INH RK); auto.
    - apply Forall_forall. intros m I. apply in_map_iff in I. destruct I as (x & <- & I). apply (go_proper _ _ _ GO). auto.
    - apply Forall_forall. intros m I. apply in_map_iff in I. destruct I as (x & <- & I). apply (go_decl _ _ _ GO). auto. }
  assert (E' : exists mbs, (if fb then forbid_action else permit_action) N (file_of consts arrays Y) (h_idx h) (h_lets h) (k_preds P) (map mb_pc (k_membs P)) a = Some mbs /\ Y' = Y /\ P' = with_pcs P mbs).
  { unfold st in E. destruct fb; cbn [read_inside] in E.
    - destruct (forbid_action _ _ _ _ _ _ _) as [mbs|]; [|discriminate]. injection E as <- <-. exists mbs. auto.
    - destruct (permit_action _ _ _ _ _ _ _) as [mbs|]; [|discriminate]. injection E as <- <-. exists mbs. auto. }
  destruct E' as (mbs & EM & -> & ->). specialize (A mbs EM). clear E EM.
  set (rel := fun m m' => member_marked N fb (action_step N (m_pc m) (Gm m) [(h_idx h, m_index m)] false a Puppet) m m') in *.
  assert (F2' : Forall2 (fun (m : member) m' => rel (mb_pc m) m') (k_membs P) mbs).
  { clear - A. revert mbs A. induction (k_membs P) as [|m l IH]; intros mbs F2; inversion F2; subst; constructor; auto. }
  assert (CH : Forall2 (fun m m' : member => changed Gk st m m' /\ same_m (mb_pc m) (mb_pc m') /\ (grown_so_far N (mb_pc m) -> grown_so_far N (mb_pc m')) /\
    (state_fmla ds (p_assume (m_pc (mb_pc m))) /\ state_fmla ds (mb_invariant m) -> state_fmla ds (p_assume (m_pc (mb_pc m'))) /\ state_fmla ds (mb_invariant m')))
     (k_membs P) (k_membs (with_pcs P mbs))).
  { unfold with_pcs. cbn [k_membs]. apply (f2_map_combine _ _ _ _ _ _ _ _ F2'). intros m m' I R. cbn [fst snd mb_pc mb_invariant].
    destruct R as [(R1 & R2 & R3 & R4 & R5 & R6 & R7) R8 R9].
    assert (SM : same_m (mb_pc m) m') by (repeat split; auto). split; [|split; [auto|split; [unfold grown_so_far; rewrite R6, R7; auto|rewrite R5; auto]]].
    constructor; cbn [mb_pc mb_invariant]; auto.
    - intros s S. rewrite R5. unfold st. destruct fb; cbn; tauto.
    - intros s S. unfold st. destruct fb; cbn; tauto.
    - intros HD s t S T'. rewrite R6. unfold st. destruct fb; cbn; tauto.
    - intros s t S T'. rewrite R7. split; auto. intros [X|X]; auto. exfalso. revert X. apply never_given. unfold st. destruct fb; discriminate.
    - intros s t S T'. rewrite (R9 s t S T'). unfold st, seen_by. destruct fb; cbn; [intuition discriminate|]. unfold Gm, indexed. tauto.
    - intros s t S T'. rewrite (R8 s t S T'). unfold st, seen_by. destruct fb; cbn; [|intuition discriminate]. unfold Gm, indexed. tauto. }
  split; [|split].
  - apply (good_same Gk Y P); auto; try apply GO.
    + unfold st. destruct fb; discriminate.
    + apply (f2_impl _ _ _ _ _ _ CH). intros m m' (_ & C). exact C.
  - apply (f2_impl _ _ _ _ _ _ CH). intros m m' (C & _). auto.
  - apply sys_same; unfold st; destruct fb; discriminate.
Qed.

Lemma pf_true : forall Gk m e s (pf : fmla), (exists v, truth (seen_by Gk m) (ix m) e s = Some v /\ (holds pf s <-> v = true)) ->
  (holds pf s <-> truth (seen_by Gk m) (ix m) e s = Some true).
Proof. intros Gk m e s pf (v & -> & H). rewrite H. split; [intros ->; auto|congruence]. Qed.
Lemma mode_keeps : forall Y md Y', assign_legit_mode Y md = Some Y' -> y_preds Y' = y_preds Y /\ y_assume Y' = y_assume Y /\ y_invariant Y' = y_invariant Y /\
  y_totals Y' = y_totals Y /\ y_mode Y' = Some md.
Proof.
  intros Y md Y' E. unfold assign_legit_mode in E. destruct (y_mode Y); [destruct (style_eqb _ _ && scope_eqb _ _); [|discriminate]|]; injection E as <-; cbn; auto.
Qed.
Lemma good_mode : forall Gk Y md Y' P, good Gk Y P -> assign_legit_mode Y md = Some Y' -> good Gk Y' P.
Proof.
  intros Gk Y md Y' P GO E. destruct (mode_keeps _ _ _ E) as (E1 & E2 & E3 & E4 & _). destruct GO as [D1 D2 D3 D4 D5 D6 D7 D8 D9].
  constructor; rewrite ?E2, ?E3, ?E4; auto. intros m I. unfold file_of. rewrite E1. apply D1. auto.
Qed.

Theorem step_spec : forall Gk Y P st Y' P', good Gk Y P -> (forall m, In m (k_membs P) -> g_preds (seen_by Gk m) = g_preds G0) ->
  proper_stmt [h_idx h] G0 st -> read_inside consts arrays h (Y, P) st = Some (Y', P') ->
  good (next Gk st) Y' P' /\ Forall2 (changed Gk st) (k_membs P) (k_membs P') /\ sys_changed Gk P st Y Y'.
Proof.
  intros Gk Y P st Y' P' GO SG PR E. destruct st as [x e|e|md e|r a|a|a].
  - destruct PR as (FR & NONE). cbn [read_inside] in E. destruct (eval_members _ _ _ _ _ e) as [pfs|] eqn:EV; [|discriminate]. injection E as <- <-.
    pose proof (members_eval Gk Y P e pfs GO FR EV) as F2. split; [|split].
    + destruct GO as [D1 D2 D3 D4 D5 D6 D7 D8 D9]. constructor; cbn [k_membs]; auto. intros m I. cbn [k_preds].
      apply declares_next; auto; [constructor; auto|rewrite SG; auto].
    + cbn [k_membs]. apply refl_f2. intros m _. apply unchanged; [discriminate|exact Logic.I].
    + apply sys_same; discriminate.
  - cbn [proper_stmt] in PR. cbn [read_inside] in E. destruct (eval_members _ _ _ _ _ e) as [pfs|] eqn:EV; [|discriminate]. injection E as <- <-.
    pose proof (members_eval Gk Y P e pfs GO PR EV) as F2.
    assert (FS : Forall (state_fmla ds) pfs) by (clear - F2; induction F2 as [|m pf l l' (A & _) F2 IH]; constructor; auto).
    destruct (conj_all ds pfs (y_assume Y) (go_assume _ _ _ GO) FS) as (CS & CA).
    assert (CH : Forall2 (fun m m' : member => changed Gk (Assume e) m m' /\ same_m (mb_pc m) (mb_pc m') /\ (grown_so_far N (mb_pc m) -> grown_so_far N (mb_pc m')) /\
      (state_fmla ds (p_assume (m_pc (mb_pc m))) /\ state_fmla ds (mb_invariant m) -> state_fmla ds (p_assume (m_pc (mb_pc m'))) /\ state_fmla ds (mb_invariant m')))
      (k_membs P) (map (fun mx => assume_member (fst mx) (snd mx)) (combine (k_membs P) pfs))).
    { apply (f2_map_combine _ _ _ _ _ _ _ _ F2). intros m pf I (SP & H). cbn [fst snd assume_member mb_pc mb_invariant m_pc p_assume].
      assert (SM : same_m (mb_pc m) (mkMembr (mkProcess (p_kind (m_pc (mb_pc m))) (p_vbls (m_pc (mb_pc m))) (and_PFmla (p_assume (m_pc (mb_pc m))) pf) (p_puppet (m_pc (mb_pc m))) (p_shadow (m_pc (mb_pc m))) (p_permit (m_pc (mb_pc m))) (p_forbid (m_pc (mb_pc m))))
              (m_number (mb_pc m)) (m_index (mb_pc m)))) by (repeat split; auto).
      split; [|split; [exact SM|split; [auto|intros (A & B); split; auto; apply conj_state; auto]]].
      constructor; auto; cbn [assume_member mb_pc mb_invariant m_pc p_assume p_puppet p_shadow p_permit p_forbid].
      - intros s S. rewrite conj_holds. rewrite (pf_true Gk m e s pf (H s S)). cbn. tauto.
      - intros s S. cbn. tauto.
      - intros _ s t S T. cbn. tauto.
      - intros s t S T. split; auto. intros [X|X]; auto. exfalso. revert X. apply never_given. discriminate.
      - intros s t S T. cbn. tauto.
      - intros s t S T. cbn. tauto. }
    split; [|split].
    + apply (good_same Gk Y P); auto; cbn [y_assume y_invariant]; try apply GO; auto; try discriminate.
      apply (f2_impl _ _ _ _ _ _ CH). intros m m' (_ & C). exact C.
    + apply (f2_impl _ _ _ _ _ _ CH). intros m m' (C & _). auto.
    + constructor; cbn [y_preds y_assume y_invariant y_totals]; auto.
      * intros s S. rewrite CA. split; intros (X & Z); split; auto.
        -- intros m I. destruct (f2_exists' _ _ _ _ _ F2 m I) as (pf & J & _ & H). apply (pf_true Gk m e s pf (H s S)). auto.
        -- intros pf I. destruct (f2_exists _ _ _ _ _ F2 pf I) as (m & J & _ & H). apply (pf_true Gk m e s pf (H s S)). apply (Z m J).
      * intros s S. split; [intros X; split; auto; intros m I; exact Logic.I|tauto].
      * intros s t S T. split; auto. intros [X|X]; auto. exfalso. revert X. apply never. discriminate.
      * intros s t S T. split; auto. intros [X|(X & _)]; auto. exfalso. revert X. apply never_spec. discriminate.
  - cbn [proper_stmt] in PR. cbn [read_inside] in E. destruct (assign_legit_mode Y md) as [Y1|] eqn:EM; [|discriminate].
    destruct (eval_members _ _ _ Y1 _ e) as [pfs|] eqn:EV; [|discriminate]. injection E as <- <-.
    pose proof (good_mode _ _ _ _ _ GO EM) as GO1. destruct (mode_keeps _ _ _ EM) as (E1 & E2 & E3 & E4 & _).
    pose proof (members_eval Gk Y1 P e pfs GO1 PR EV) as F2.
    assert (FS : Forall (state_fmla ds) pfs) by (clear - F2; induction F2 as [|m pf l l' (A & _) F2 IH]; constructor; auto).
    destruct (conj_all ds pfs (y_invariant Y1) (go_inv _ _ _ GO1) FS) as (CS & CA).
    assert (CH : Forall2 (fun m m' : member => changed Gk (Legit md e) m m' /\ same_m (mb_pc m) (mb_pc m') /\ (grown_so_far N (mb_pc m) -> grown_so_far N (mb_pc m')) /\
      (state_fmla ds (p_assume (m_pc (mb_pc m))) /\ state_fmla ds (mb_invariant m) -> state_fmla ds (p_assume (m_pc (mb_pc m'))) /\ state_fmla ds (mb_invariant m')))
      (k_membs P) (map (fun mx => legit_member (fst mx) (snd mx)) (combine (k_membs P) pfs))).
    { apply (f2_map_combine _ _ _ _ _ _ _ _ F2). intros m pf I (SP & H). cbn [fst snd legit_member mb_pc mb_invariant].
      assert (SM : same_m (mb_pc m) (mb_pc m)) by (repeat split; auto).
      split; [|split; [exact SM|split; [auto|intros (A & B); split; auto; apply conj_state; auto]]].
      constructor; auto; cbn [legit_member mb_pc mb_invariant].
      - intros s S. cbn. tauto.
      - intros s S. rewrite conj_holds. rewrite (pf_true Gk m e s pf (H s S)). cbn. tauto.
      - intros _ s t S T. cbn. tauto.
      - intros s t S T. split; auto. intros [X|X]; auto. exfalso. revert X. apply never_given. discriminate.
      - intros s t S T. cbn. tauto.
      - intros s t S T. cbn. tauto. }
    split; [|split].
    + apply (good_same Gk Y P); auto; cbn [y_assume y_invariant]; try rewrite E2; try apply GO; auto; try discriminate.
      apply (f2_impl _ _ _ _ _ _ CH). intros m m' (_ & C). exact C.
    + apply (f2_impl _ _ _ _ _ _ CH). intros m m' (C & _). auto.
    + constructor; cbn [y_preds y_assume y_invariant y_totals]; auto; rewrite ?E2, ?E4.
      * intros s S. split; [intros X; split; auto; intros m I; exact Logic.I|tauto].
      * intros s S. rewrite CA, E3. split; intros (X & Z); split; auto.
        -- intros m I. destruct (f2_exists' _ _ _ _ _ F2 m I) as (pf & J & _ & H). apply (pf_true Gk m e s pf (H s S)). auto.
        -- intros pf I. destruct (f2_exists _ _ _ _ _ F2 pf I) as (m & J & _ & H). apply (pf_true Gk m e s pf (H s S)). apply (Z m J).
      * intros s t S T. split; auto. intros [X|X]; auto. exfalso. revert X. apply never. discriminate.
      * intros s t S T. split; auto. intros [X|(X & _)]; auto. exfalso. revert X. apply never_spec. discriminate.
  - destruct PR as (FR & LAST). apply act_spec; auto.
  - destruct PR as (FR & LAST). apply (mark_step false); auto.
  - destruct PR as (FR & LAST). apply (mark_step true); auto.
Qed.
End Body.
