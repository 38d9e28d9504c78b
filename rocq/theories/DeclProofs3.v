From Coq Require Import String List Arith Bool ZArith Lia.
From Verif Require Import FinLib Radix FmlaModel FmlaSpec FmlaProofs FmlaProofs2 FmlaProofs3 FmlaProofs4
  ActModel NetModel IntModel IntSpec ExprModel ExprSpec ExprProps ReachSpec ReachProofs CmdModel CmdSpec CmdProofs2 CmdProofs CmdProofs3 CmdProofs4 CmdProps
  DeclModel DeclSpec DeclProofs DeclProofs2.
Import ListNotations.
Local Open Scope list_scope.

Section Body.
Variables (consts : list (string * list Z)) (arrays : list (string * list nat)) (h : pc_head) (G0 : scope).
Notation N := (h_net h).
Notation ds := (vdoms N).
Hypothesis INH : inhabited ds.
Hypothesis RK : wf_ids ds (random_vbls N).
Notation good := (good consts arrays h).
Notation ix := (ix h).

Record body_says (Gk : scopes) (l : list stmt) (m m' : member) : Prop := mkBody {
  bs_same : same_m (mb_pc m) (mb_pc m');
  bs_assume : forall s, ok ds s -> (holds (p_assume (m_pc (mb_pc m'))) s <->
    holds (p_assume (m_pc (mb_pc m))) s /\ every_stmt (assumed (ix m) s) (seen_by Gk m) (ix m) l);
  bs_inv : forall s, ok ds s -> (holds (mb_invariant m') s <-> holds (mb_invariant m) s /\ every_stmt (demanded (ix m) s) (seen_by Gk m) (ix m) l);
  bs_puppet : hides h (m_pc (mb_pc m)) = false -> forall s t, ok ds s -> ok ds t ->
    (FmlaSpec.steps (p_puppet (m_pc (mb_pc m'))) s t <-> FmlaSpec.steps (p_puppet (m_pc (mb_pc m))) s t \/
       some_stmt (given h (mb_pc m) not_shadow s t) (seen_by Gk m) (ix m) l);
  bs_shadow : forall s t, ok ds s -> ok ds t -> (FmlaSpec.steps (p_shadow (m_pc (mb_pc m'))) s t <->
    FmlaSpec.steps (p_shadow (m_pc (mb_pc m))) s t \/ specified N (fun s t => some_stmt (given h (mb_pc m) not_puppet s t) (seen_by Gk m) (ix m) l) s t);
  bs_permit : forall s t, ok ds s -> ok ds t -> (FmlaSpec.steps (p_permit (m_pc (mb_pc m'))) s t <->
    FmlaSpec.steps (p_permit (m_pc (mb_pc m))) s t \/ some_stmt (permitted h (mb_pc m) s t) (seen_by Gk m) (ix m) l);
  bs_forbid : forall s t, ok ds s -> ok ds t -> (FmlaSpec.steps (p_forbid (m_pc (mb_pc m'))) s t <->
    FmlaSpec.steps (p_forbid (m_pc (mb_pc m))) s t \/ some_stmt (forbidden h (mb_pc m) s t) (seen_by Gk m) (ix m) l)
}.
Definition anybody (P : pc_state) (Gk : scopes) (R : role -> Prop) (l : list stmt) (s t : list nat) : Prop :=
  exists m, In m (k_membs P) /\ agree_off ds (written N (m_pc (mb_pc m))) t s /\ some_stmt (given h (mb_pc m) R s t) (seen_by Gk m) (ix m) l.
Record sys_says (Gk : scopes) (P : pc_state) (l : list stmt) (Y Y' : sys_state) : Prop := mkSysSays {
  ss_preds : y_preds Y' = y_preds Y;
  ss_assume : forall s, ok ds s -> (holds (y_assume Y') s <-> holds (y_assume Y) s /\ forall m, In m (k_membs P) -> every_stmt (assumed (ix m) s) (seen_by Gk m) (ix m) l);
  ss_inv : forall s, ok ds s -> (holds (y_invariant Y') s <-> holds (y_invariant Y) s /\ forall m, In m (k_membs P) -> every_stmt (demanded (ix m) s) (seen_by Gk m) (ix m) l);
  ss_direct : forall s t, ok ds s -> ok ds t -> (FmlaSpec.steps (t_direct (y_totals Y')) s t <->
    FmlaSpec.steps (t_direct (y_totals Y)) s t \/ anybody P Gk not_shadow l s t);
  ss_shadow : forall s t, ok ds s -> ok ds t -> (FmlaSpec.steps (t_shadow (y_totals Y')) s t <->
    FmlaSpec.steps (t_shadow (y_totals Y)) s t \/ (specified N (anybody P Gk not_puppet l) s t /\ ~ agree_off ds (out_of_sight N Shadow) t s))
}.

(** The rest of the statements, seen from the process before the first one *)
Lemma seen_next : forall Gk st m m', same_m (mb_pc m) (mb_pc m') -> seen_by (next h Gk st) m' = after_inside (seen_by Gk m) (ix m) st.
Proof. intros Gk st m m' (A & B & _). unfold seen_by, next. rewrite A, B. reflexivity. Qed.
Lemma ix_same : forall m m', same_m (mb_pc m) (mb_pc m') -> ix m' = ix m.
Proof. intros m m' S. apply indexed_same. auto. Qed.
Lemma some_iff : forall (Q Q' : scope -> stmt -> Prop) b l G, (forall G st, Q G st <-> Q' G st) -> (some_stmt Q G b l <-> some_stmt Q' G b l).
Proof. intros Q Q' b l G H. split; apply some_mono; intros; apply H; auto. Qed.

Lemma hides_same : forall p p', same_pc p p' -> hides h p' = hides h p.
Proof. intros p p' (A & B). unfold hides, kind_of. rewrite A. auto. Qed.

Lemma says_step : forall Gk st l m m1 m', changed h Gk st m m1 -> body_says (next h Gk st) l m1 m' -> body_says Gk (st :: l) m m'.
Proof.
  intros Gk st l m m1 m' [C1 C2 C3 C4 C5 C6 C7] [B1 B2 B3 B4 B5 B6 B7].
  pose proof (seen_next Gk st m m1 C1) as SN. pose proof (ix_same m m1 C1) as IX. rewrite SN, IX in *.
  constructor; cbn [every_stmt some_stmt].
  - destruct C1 as (X1 & X2 & X3 & X4), B1 as (Z1 & Z2 & Z3 & Z4). repeat split; congruence.
  - intros s S. rewrite (B2 s S), (C2 s S). tauto.
  - intros s S. rewrite (B3 s S), (C3 s S). tauto.
  - intros HD s t S T. rewrite (B4 ltac:(rewrite (hides_same _ _ (proj2 (proj2 C1))); auto) s t S T), (C4 HD s t S T).
    rewrite (some_iff _ _ (ix m) l (after_inside (seen_by Gk m) (ix m) st) (fun G x => iff_sym (given_same h _ _ C1 not_shadow s t G x))). tauto.
  - intros s t S T. rewrite (B5 s t S T), (C5 s t S T). rewrite spec_or.
    rewrite (spec_iff N _ _ s t (fun s t _ _ => some_iff _ _ (ix m) l (after_inside (seen_by Gk m) (ix m) st) (fun G x => iff_sym (given_same h _ _ C1 not_puppet s t G x)))). tauto.
  - intros s t S T. rewrite (B6 s t S T), (C6 s t S T).
    rewrite (some_iff _ _ (ix m) l (after_inside (seen_by Gk m) (ix m) st) (fun G x => iff_sym (permitted_same h _ _ C1 s t G x))). tauto.
  - intros s t S T. rewrite (B7 s t S T), (C7 s t S T).
    rewrite (some_iff _ _ (ix m) l (after_inside (seen_by Gk m) (ix m) st) (fun G x => iff_sym (forbidden_same h _ _ C1 s t G x))). tauto.
Qed.
Lemma f2_trans : forall A (R1 R2 R3 : A -> A -> Prop) l1 l2 l3, (forall a b c, R1 a b -> R2 b c -> R3 a c) -> Forall2 R1 l1 l2 -> Forall2 R2 l2 l3 -> Forall2 R3 l1 l3.
Proof. intros A R1 R2 R3 l1 l2 l3 H F. revert l3. induction F; intros l3 F'; inversion F'; subst; constructor; eauto. Qed.

Lemma anybody_step : forall Gk P st l P1 R s t, Forall2 (changed h Gk st) (k_membs P) (k_membs P1) ->
  (anybody P Gk R (st :: l) s t <-> somebody h P Gk R st s t \/ anybody P1 (next h Gk st) R l s t).
Proof.
  intros Gk P st l P1 R s t F2. split.
  - intros (m & I & AG & [X|X]).
    + left. exists m. auto.
    + right. destruct (f2_exists' _ _ _ _ _ F2 m I) as (m1 & J & C). exists m1. split; auto. pose proof (ch_same _ _ _ _ _ C) as C1.
      rewrite (seen_next Gk st m m1 C1), (ix_same m m1 C1), (written_same N _ _ (proj2 (proj2 C1))). split; auto.
      revert X. apply some_mono. intros G x. apply (given_same h _ _ C1).
  - intros [(m & I & AG & X)|(m1 & J & AG & X)].
    + exists m. split; auto. split; auto. left. auto.
    + destruct (f2_exists _ _ _ _ _ F2 m1 J) as (m & I & C). pose proof (ch_same _ _ _ _ _ C) as C1.
      rewrite (seen_next Gk st m m1 C1), (ix_same m m1 C1) in X. rewrite (written_same N _ _ (proj2 (proj2 C1))) in AG.
      exists m. split; auto. split; auto. right. revert X. apply some_mono. intros G x. apply (given_same h _ _ C1).
Qed.
Lemma every_step : forall Gk P st l P1 (what : imap -> list nat -> scope -> stmt -> Prop) s, Forall2 (changed h Gk st) (k_membs P) (k_membs P1) ->
  ((forall m, In m (k_membs P) -> every_stmt (what (ix m) s) (seen_by Gk m) (ix m) (st :: l)) <->
   (forall m, In m (k_membs P) -> what (ix m) s (seen_by Gk m) st) /\
   (forall m, In m (k_membs P1) -> every_stmt (what (ix m) s) (seen_by (next h Gk st) m) (ix m) l)).
Proof.
  intros Gk P st l P1 what s F2. split.
  - intros H. split; [intros m I; apply (H m I)|]. intros m1 J. destruct (f2_exists _ _ _ _ _ F2 m1 J) as (m & I & C). pose proof (ch_same _ _ _ _ _ C) as C1.
    rewrite (seen_next Gk st m m1 C1), (ix_same m m1 C1). apply (H m I).
  - intros (H1 & H2) m I. split; [apply H1; auto|]. destruct (f2_exists' _ _ _ _ _ F2 m I) as (m1 & J & C). pose proof (ch_same _ _ _ _ _ C) as C1.
    specialize (H2 m1 J). rewrite (seen_next Gk st m m1 C1), (ix_same m m1 C1) in H2. auto.
Qed.

Lemma body_spec : forall l Gk Y P Y' P', good Gk Y P -> (forall m, In m (k_membs P) -> g_preds (seen_by Gk m) = g_preds G0) ->
  Forall (proper_stmt [h_idx h] G0) l -> read_body consts arrays h (Y, P) l = Some (Y', P') ->
  (exists Gk', good Gk' Y' P') /\ Forall2 (body_says Gk l) (k_membs P) (k_membs P') /\ sys_says Gk P l Y Y'.
Proof.
  induction l as [|st l IH]; intros Gk Y P Y' P' GO SG PR E; cbn [read_body] in E.
  - injection E as <- <-. split; [eauto|]. split.
    + apply refl_f2. intros m _. constructor; cbn [every_stmt some_stmt].
      * repeat split; auto.
      * intros s S. tauto.
      * intros s S. tauto.
      * intros _ s t S T. tauto.
      * intros s t S T. split; auto. intros [X|X]; auto. exfalso. exact (spec_none _ _ _ X).
      * intros s t S T. tauto.
      * intros s t S T. tauto.
    + constructor; auto; cbn [every_stmt].
      * intros s S. split; [intros X; split; auto|tauto].
      * intros s S. split; [intros X; split; auto|tauto].
      * intros s t S T. split; auto. intros [X|(m & _ & _ & [])]; auto.
      * intros s t S T. split; auto. intros [X|((s' & t' & _ & _ & _ & _ & m & _ & _ & []) & _)]; auto.
  - destruct (read_inside consts arrays h (Y, P) st) as [(Y1, P1)|] eqn:E1; [|discriminate]. inversion PR as [|? ? PR1 PR2]; subst.
    destruct (step_spec consts arrays h INH RK G0 Gk Y P st Y1 P1 GO SG PR1 E1) as (GO1 & F2 & SC).
    destruct (IH (next h Gk st) Y1 P1 Y' P' GO1) as (GE & F2' & SS); auto.
    { intros m1 J. destruct (f2_exists _ _ _ _ _ F2 m1 J) as (m & I & C). rewrite (seen_next Gk st m m1 (ch_same _ _ _ _ _ C)).
      rewrite <- (SG m I). destruct st; reflexivity. }
    split; auto. split.
    + apply (f2_trans _ _ _ _ _ _ _ (fun a b c => says_step Gk st l a b c) F2 F2').
    + destruct SC as [S1 S2 S3 S4 S5], SS as [T1 T2 T3 T4 T5]. constructor.
      * congruence.
      * intros s S. rewrite (T2 s S), (S2 s S), (every_step Gk P st l P1 assumed s F2). tauto.
      * intros s S. rewrite (T3 s S), (S3 s S), (every_step Gk P st l P1 demanded s F2). tauto.
      * intros s t S T. rewrite (T4 s t S T), (S4 s t S T), (anybody_step Gk P st l P1 not_shadow s t F2). tauto.
      * intros s t S T. rewrite (T5 s t S T), (S5 s t S T).
        rewrite (spec_iff N _ _ s t (fun s t _ _ => anybody_step Gk P st l P1 not_puppet s t F2)), spec_or. tauto.
Qed.

(** ** Acceptance *)
Definition fits_mode (Y : sys_state) (md : mode) : Prop := forall md', y_mode Y = Some md' -> md' = md.
Lemma mode_accepts : forall Y md, fits_mode Y md -> exists Y', assign_legit_mode Y md = Some Y'.
Proof.
  intros Y md F. unfold assign_legit_mode, fits_mode in *. destruct (y_mode Y) as [md'|]; eauto. rewrite (F md' eq_refl).
  destruct md as ([], []); cbn; eauto.
Qed.
Lemma step_accepts : forall Gk Y P st, good Gk Y P -> proper_stmt [h_idx h] G0 st ->
  (forall m, In m (k_membs P) -> total_stmt ds N (mb_pc m) (ix m) (seen_by Gk m) st) -> (forall md, In md (modes_of [st]) -> fits_mode Y md) ->
  exists Y' P', read_inside consts arrays h (Y, P) st = Some (Y', P') /\ (y_mode Y' = y_mode Y \/ exists md, In md (modes_of [st]) /\ y_mode Y' = Some md).
Proof.
  intros Gk Y P st GO PR T MD. destruct st as [x e|e|md e|r a|a|a].
  - cbn [read_inside]. assert (E := members_total consts arrays h INH Gk Y P e GO (proj1 PR) T). destruct (eval_members _ _ _ Y P e) as [pfs|]; [|contradiction]. eauto.
  - cbn [read_inside]. assert (E := members_total consts arrays h INH Gk Y P e GO PR T). destruct (eval_members _ _ _ Y P e) as [pfs|]; [|contradiction]. eauto.
  - cbn [read_inside]. destruct (mode_accepts Y md) as (Y1 & EM); [apply MD; left; auto|]. rewrite EM.
    assert (E := members_total consts arrays h INH Gk Y1 P e (good_mode _ _ _ _ _ _ _ _ GO EM) PR T). destruct (eval_members _ _ _ Y1 P e) as [pfs|]; [|contradiction].
    eexists _, _. split; eauto. right. exists md. split; [left; auto|]. cbn. apply (mode_keeps _ _ _ EM).
  - destruct PR as (FR & LAST). set (Gm := fun m : membr => Gk (m_number m) (m_index m)).
    destruct (C69_added N (file_of consts arrays Y) (h_idx h) (h_lets h) (k_preds P) Gm (map mb_pc (k_membs P)) r a (y_totals Y) INH RK) as (A & _); auto.
    { apply Forall_forall. intros m I. apply in_map_iff in I. destruct I as (x & <- & I). apply (go_proper _ _ _ _ _ _ GO). auto. }
    { apply Forall_forall. intros m I. apply in_map_iff in I. destruct I as (x & <- & I). apply (go_decl _ _ _ _ _ _ GO). auto. }
    { apply (go_direct _ _ _ _ _ _ GO). } { apply (go_shadow _ _ _ _ _ _ GO). }
    { apply Forall_forall. intros m I. apply in_map_iff in I. destruct I as (x & <- & I). apply (go_grown _ _ _ _ _ _ GO). auto. }
    assert (TOT : add_action N (file_of consts arrays Y) (h_idx h) (h_lets h) (k_preds P) (map mb_pc (k_membs P)) r a (y_totals Y) <> None).
    { apply A. intros mb I. apply in_map_iff in I. destruct I as (m & <- & I). apply (T m I). }
    cbn [read_inside]. destruct (add_action _ _ _ _ _ _ _ _ _) as [(mbs & T')|]; [|contradiction]. eauto.
  - destruct PR as (FR & LAST). set (Gm := fun m : membr => Gk (m_number m) (m_index m)).
    assert (A : exists xs, parse_actions N (file_of consts arrays Y) (h_idx h) (h_lets h) (k_preds P) (map mb_pc (k_membs P)) false Puppet a = Some xs).
    { unfold parse_actions. assert (B : exists xs, map (fun mb => parse_action N (file_of consts arrays Y) (h_idx h) (h_lets h) (k_preds P) mb false Puppet a) (map mb_pc (k_membs P)) = map Some xs).
      { pose proof (go_decl _ _ _ _ _ _ GO) as D1. pose proof (go_proper _ _ _ _ _ _ GO) as D2. clear GO MD. induction (k_membs P) as [|m l IH]; [exists []; auto|].
        destruct IH as (xs & E); [intros m' I; apply T; right; auto|intros m' I; apply D1; right; auto|intros m' I; apply D2; right; auto|].
        pose proof (C69_accepted N _ _ _ _ _ _ false Puppet a INH (D1 m (or_introl eq_refl)) (D2 m (or_introl eq_refl)) FR LAST (T m (or_introl eq_refl))) as AC.
        destruct (parse_action N (file_of consts arrays Y) (h_idx h) (h_lets h) (k_preds P) (mb_pc m) false Puppet a) as [x|] eqn:EX; [|contradiction].
        exists (x :: xs). cbn [map]. rewrite EX. f_equal. auto. }
      destruct B as (xs & B). exists (fold_left (fun f mx => or_PFmla f (and_PFmla (snd mx) (mask_of N (m_pc (fst mx))))) (combine (map mb_pc (k_membs P)) xs) (Cst false), xs).
      rewrite (proj2 (all_parsed_spec _ _ xs) B). reflexivity. }
    destruct A as (xs & A). cbn [read_inside]. unfold permit_action. rewrite A. cbn. eauto.
  - destruct PR as (FR & LAST). set (Gm := fun m : membr => Gk (m_number m) (m_index m)).
    assert (A : exists xs, parse_actions N (file_of consts arrays Y) (h_idx h) (h_lets h) (k_preds P) (map mb_pc (k_membs P)) false Puppet a = Some xs).
    { unfold parse_actions. assert (B : exists xs, map (fun mb => parse_action N (file_of consts arrays Y) (h_idx h) (h_lets h) (k_preds P) mb false Puppet a) (map mb_pc (k_membs P)) = map Some xs).
      { pose proof (go_decl _ _ _ _ _ _ GO) as D1. pose proof (go_proper _ _ _ _ _ _ GO) as D2. clear GO MD. induction (k_membs P) as [|m l IH]; [exists []; auto|].
        destruct IH as (xs & E); [intros m' I; apply T; right; auto|intros m' I; apply D1; right; auto|intros m' I; apply D2; right; auto|].
        pose proof (C69_accepted N _ _ _ _ _ _ false Puppet a INH (D1 m (or_introl eq_refl)) (D2 m (or_introl eq_refl)) FR LAST (T m (or_introl eq_refl))) as AC.
        destruct (parse_action N (file_of consts arrays Y) (h_idx h) (h_lets h) (k_preds P) (mb_pc m) false Puppet a) as [x|] eqn:EX; [|contradiction].
        exists (x :: xs). cbn [map]. rewrite EX. f_equal. auto. }
      destruct B as (xs & B). exists (fold_left (fun f mx => or_PFmla f (and_PFmla (snd mx) (mask_of N (m_pc (fst mx))))) (combine (map mb_pc (k_membs P)) xs) (Cst false), xs).
      rewrite (proj2 (all_parsed_spec _ _ xs) B). reflexivity. }
    destruct A as (xs & A). cbn [read_inside]. unfold forbid_action. rewrite A. cbn. eauto.
Qed.
Lemma total_stmt_same : forall m m' b G st, same_m m m' -> total_stmt ds N m b G st -> total_stmt ds N m' b G st.
Proof.
  intros m m' b G st (A & B & C) T. destruct st; cbn in *; try (apply (total_same _ (m_pc m)); auto); destruct C as (_ & ->); auto.
Qed.
Lemma every_total_same : forall m m' l b G, same_m m m' -> every_stmt (total_stmt ds N m b) G b l -> every_stmt (total_stmt ds N m' b) G b l.
Proof. intros m m' l b G S. apply every_mono. intros G' st. apply total_stmt_same. auto. Qed.
Lemma body_accepts : forall l Gk Y P md, good Gk Y P -> (forall m, In m (k_membs P) -> g_preds (seen_by Gk m) = g_preds G0) ->
  Forall (proper_stmt [h_idx h] G0) l ->
  (forall m, In m (k_membs P) -> every_stmt (total_stmt ds N (mb_pc m) (ix m)) (seen_by Gk m) (ix m) l) ->
  fits_mode Y md -> (forall md', In md' (modes_of l) -> md' = md) ->
  exists Y' P', read_body consts arrays h (Y, P) l = Some (Y', P') /\ fits_mode Y' md.
Proof.
  induction l as [|st l IH]; intros Gk Y P md GO SG PR T FM MD; cbn [read_body]; [eauto|]. inversion PR as [|? ? PR1 PR2]; subst.
  assert (MD1 : forall md', In md' (modes_of [st]) -> md' = md).
  { intros md' I. apply MD. unfold modes_of in *. cbn [flat_map] in *. rewrite app_nil_r in I. apply in_or_app. auto. }
  destruct (step_accepts Gk Y P st GO PR1) as (Y1 & P1 & E1 & M1).
  { intros m I. apply (T m I). }
  { intros md' I. rewrite (MD1 md' I). auto. }
  rewrite E1. destruct (step_spec consts arrays h INH RK G0 Gk Y P st Y1 P1 GO SG PR1 E1) as (GO1 & F2 & SC).
  apply (IH (next h Gk st)); auto.
  - intros m1 J. destruct (f2_exists _ _ _ _ _ F2 m1 J) as (m & I & C). rewrite (seen_next Gk st m m1 (ch_same _ _ _ _ _ C)). rewrite <- (SG m I). destruct st; reflexivity.
  - intros m1 J. destruct (f2_exists _ _ _ _ _ F2 m1 J) as (m & I & C). pose proof (ch_same _ _ _ _ _ C) as C1.
    rewrite (seen_next Gk st m m1 C1), (ix_same m m1 C1). apply (every_total_same (mb_pc m)); auto. apply (T m I).
  - destruct M1 as [M1|(md' & I & M1)]; unfold fits_mode in *; intros md0 E; rewrite M1 in E; auto. injection E as <-. apply MD1. auto.
  - intros md' I. apply MD. unfold modes_of in *. cbn [flat_map]. apply in_or_app. auto.
Qed.
End Body.
