From Coq Require Import String List Arith Bool ZArith Lia.
From Verif Require Import FinLib Radix FmlaModel FmlaSpec FmlaProofs FmlaProofs2 FmlaProofs3 FmlaProofs4
  ActModel NetModel IntModel IntSpec ExprModel ExprSpec ExprProps ReachSpec ReachProofs CmdModel CmdSpec CmdProofs2 CmdProofs CmdProofs3 CmdProofs4 CmdProps
  DeclModel DeclSpec DeclProofs DeclProofs2 DeclProofs3.
Import ListNotations.
Local Open Scope list_scope.

Section File.
Variables (ds : list nat) (consts : list (string * list Z)) (arrays : list (string * list nat)).
Hypothesis INH : inhabited ds.

Record fine (G : scope) (Y : sys_state) : Prop := mkFine {
  fi_decl : declares ds (file_of consts arrays Y) None G;
  fi_assume : state_fmla ds (y_assume Y);
  fi_inv : state_fmla ds (y_invariant Y);
  fi_direct : trans_fmla ds (t_direct (y_totals Y));
  fi_shadow : trans_fmla ds (t_shadow (y_totals Y))
}.

(** ** Entering a process *)
Definition entry_scopes (G : scope) (h : pc_head) : scopes := fun n z => entering G h (mkMembr (mkProcess 0 [] (Cst true) (Cst false) (Cst false) (Cst false) (Cst false)) n z).
Lemma entry_seen : forall G h m, seen_by (entry_scopes G h) m = entering G h (mb_pc m). Proof. reflexivity. Qed.
Lemma enter : forall G Y h, fine G Y -> proper_head ds G h -> good consts arrays h (entry_scopes G h) Y (new_kind h).
Proof.
  intros G Y h [D F1 F2 F3 F4] [H1 H2 H3 H4 H5 H6]. subst ds. constructor; auto.
  - intros m I. unfold new_kind in I. cbn in I. apply in_map_iff in I. destruct I as (mb & <- & I). rewrite entry_seen. cbn [mb_pc].
    destruct D as [D1 D2 D3 D4 D5 D6 D7 D8 D9 D10]. constructor; cbn; auto.
    + assert (LT : m_number mb < length (h_membs h)).
      { assert (J : In (m_number mb) (map m_number (h_membs h))) by (apply in_map; auto). rewrite H3 in J. apply in_seq in J. lia. }
      assert (K : forall x l, In (x, l) (h_lets h) -> nth_error l (m_number mb) = Some (nth (m_number mb) l 0%Z)).
      { intros x l J. apply nth_error_nth'. destruct (H6 x l J) as (L & _). lia. }
      clear - K. unfold same_keys. induction (h_lets h) as [|(x, l) ls IH]; cbn [map]; constructor; cbn.
      * split; auto. apply (K x). left. auto.
      * apply IH. intros y l' J. apply (K y). right. auto.
    + constructor.
    + intros x X. assert (K : exists l, In (x, l) (h_lets h)).
      { clear - X. induction (h_lets h) as [|(y, l) ls IH]; cbn in X; [contradiction|]. destruct (String.eqb_spec x y) as [->|].
        - exists l. left. auto.
        - destruct (IH X) as (l' & J). exists l'. right. auto. }
      destruct K as (l & J). apply (H6 x l J).
  - intros m I. cbn in I. apply in_map_iff in I. destruct I as (mb & <- & I). apply H4. auto.
  - intros m I. cbn in I. apply in_map_iff in I. destruct I as (mb & <- & I). cbn. destruct (H5 mb I) as (k & vs & E). unfold grown_so_far. rewrite E. split; apply cst_trans.
  - intros m I. cbn in I. apply in_map_iff in I. destruct I as (mb & <- & I). cbn. destruct (H5 mb I) as (k & vs & E). rewrite E. split; apply cst_state.
  - unfold new_kind. cbn. rewrite map_map, map_length. cbn. rewrite <- H3. reflexivity.
Qed.

(** ** One entry *)
Lemma expr_outside : forall G Y e pf m, fine G Y -> fresh_indices [] e -> eval_f ds (file_of consts arrays Y) None [] e = Some (pf, m) ->
  state_fmla ds pf /\ forall s, ok ds s -> exists v, truth G [] e s = Some v /\ (holds pf s <-> v = true).
Proof.
  intros G Y e pf m F FR E. destruct (C68_predicate ds _ _ _ [] e pf m INH (fi_decl _ _ F) FR E) as (A & B & _). auto.
Qed.
Lemma out_true : forall G e s (pf : fmla), (exists v, truth G [] e s = Some v /\ (holds pf s <-> v = true)) -> (holds pf s <-> truth G [] e s = Some true).
Proof. intros G e s pf (v & -> & H). rewrite H. split; [intros ->; auto|congruence]. Qed.
Lemma fine_mode : forall G Y md Y', fine G Y -> assign_legit_mode Y md = Some Y' -> fine G Y'.
Proof.
  intros G Y md Y' [D F1 F2 F3 F4] E. destruct (mode_keeps _ _ _ E) as (E1 & E2 & E3 & E4 & _). constructor; rewrite ?E2, ?E3, ?E4; auto.
  unfold file_of. rewrite E1. auto.
Qed.

Record item_says (G : scope) (it : item) (Y Y' : sys_state) : Prop := mkItemSays {
  is_assume : forall s, ok ds s -> (holds (y_assume Y') s <-> holds (y_assume Y) s /\ in_all assumed s G it);
  is_inv : forall s, ok ds s -> (holds (y_invariant Y') s <-> holds (y_invariant Y) s /\ in_all demanded s G it);
  is_direct : forall s t, ok ds s -> ok ds t -> (FmlaSpec.steps (t_direct (y_totals Y')) s t <->
    FmlaSpec.steps (t_direct (y_totals Y)) s t \/ in_some not_shadow s t G it);
  is_shadow : forall s t, ok ds s -> ok ds t -> (FmlaSpec.steps (t_shadow (y_totals Y')) s t <->
    FmlaSpec.steps (t_shadow (y_totals Y)) s t \/ in_some_seen not_puppet s t G it)
}.

Lemma outside_spec : forall G Y st Y', fine G Y -> proper_item ds G (Outside st) -> read_outside consts arrays ds Y st = Some Y' ->
  fine (after_outside G st) Y' /\ item_says G (Outside st) Y Y'.
Proof.
  intros G Y st Y' F PR E. destruct st as [x e|e|md e|r a|a|a]; try discriminate E; cbn [read_outside] in E; cbn [proper_item] in PR.
  - destruct (eval_f _ _ _ _ e) as [(pf, m)|] eqn:EV; [|discriminate]. injection E as <-. destruct (expr_outside G Y e pf m F PR EV) as (SP & H). split.
    + destruct F as [[D1 D2 D3 D4 D5 D6 D7 D8 D9 D10] F1 F2 F3 F4]. constructor; auto. constructor; cbn; auto.
      * constructor; cbn; auto. split; auto. split; auto. intros s S. unfold stands_for. destruct (H s S) as (v & -> & HV). auto.
      * intros y X. rewrite D7 in X. cbn in X. contradiction.
    + constructor; cbn; intros; tauto.
  - destruct (eval_f _ _ _ _ e) as [(pf, m)|] eqn:EV; [|discriminate]. injection E as <-. destruct (expr_outside G Y e pf m F PR EV) as (SP & H). split.
    + destruct F as [D F1 F2 F3 F4]. constructor; auto. apply conj_state; auto.
    + constructor; cbn [y_assume y_invariant y_totals in_all assumed demanded in_some in_some_seen]; intros; try tauto.
      rewrite conj_holds, (out_true G e s pf (H s H0)). tauto.
  - destruct (assign_legit_mode Y md) as [Y1|] eqn:EM; [|discriminate]. pose proof (fine_mode _ _ _ _ F EM) as F'.
    destruct (eval_f _ _ _ _ e) as [(pf, m)|] eqn:EV; [|discriminate]. injection E as <-. destruct (expr_outside G Y1 e pf m F' PR EV) as (SP & H).
    destruct (mode_keeps _ _ _ EM) as (E1 & E2 & E3 & E4 & _). split.
    + destruct F' as [D F1 F2 F3 F4]. constructor; auto. apply conj_state; auto.
    + constructor; cbn [y_assume y_invariant y_totals in_all assumed demanded in_some in_some_seen]; rewrite ?E2, ?E4; intros; try tauto.
      rewrite conj_holds, E3, (out_true G e s pf (H s H0)). tauto.
Qed.

Lemma f2_in_r : forall A B (R : A -> B -> Prop) l l', Forall2 R l l' -> Forall2 (fun a b => In b l' /\ R a b) l l'.
Proof. intros A B R l l' F. induction F as [|a b l l' H F IH]; constructor; cbn; auto. apply (f2_impl _ _ _ _ _ _ IH). intros x y (I & X). auto. Qed.
Lemma inside_spec : forall G Y h l Y' P, fine G Y -> proper_item ds G (Inside h l) -> read_body consts arrays h (Y, new_kind h) l = Some (Y', P) ->
  fine G Y' /\ item_says G (Inside h l) Y Y' /\ Forall2 (member_says h G l) (h_membs h) (k_membs P).
Proof.
  intros G Y h l Y' P F (PH & PR) E. pose proof (enter G Y h F PH) as GO. pose proof (ph_doms _ _ _ PH) as DS.
  assert (INH' : inhabited (vdoms (h_net h))) by (rewrite DS; auto). assert (RK : wf_ids (vdoms (h_net h)) (random_vbls (h_net h))) by (rewrite DS; apply (ph_random _ _ _ PH)).
  destruct (body_spec consts arrays h G INH' RK l (entry_scopes G h) Y (new_kind h) Y' P GO) as ((Gk' & GO') & F2 & SS); auto.
  destruct SS as [S1 S2 S3 S4 S5].
  assert (MEM : forall (X : member -> Prop), (forall m, In m (k_membs (new_kind h)) -> X m) <-> (forall mb, In mb (h_membs h) -> X (mkMember mb (Cst true)))).
  { intros X. unfold new_kind. cbn. split.
    - intros H mb I. apply H. apply in_map_iff. exists mb. auto.
    - intros H m I. apply in_map_iff in I. destruct I as (mb & <- & I). auto. }
  assert (ANY : forall R s t, anybody h (new_kind h) (entry_scopes G h) R l s t <-> in_some R s t G (Inside h l)).
  { intros R s t. unfold anybody, in_some. split.
    - intros (m & I & AG & X). unfold new_kind in I. cbn in I. apply in_map_iff in I. destruct I as (mb & <- & I). exists mb. auto.
    - intros (mb & I & AG & X). exists (mkMember mb (Cst true)). split; [|auto]. unfold new_kind. cbn. apply in_map_iff. exists mb. auto. }
  split; [|split].
  - destruct GO' as [_ _ _ _ _ G1 G2 G3 G4]. rewrite DS in *. constructor; auto. unfold file_of. rewrite S1. apply (fi_decl _ _ F).
  - constructor; rewrite <- DS.
    + intros s S. rewrite (S2 s S). cbn [in_all]. rewrite (MEM (fun m => every_stmt (assumed (ix h m) s) (seen_by (entry_scopes G h) m) (ix h m) l)). reflexivity.
    + intros s S. rewrite (S3 s S). cbn [in_all]. rewrite (MEM (fun m => every_stmt (demanded (ix h m) s) (seen_by (entry_scopes G h) m) (ix h m) l)). reflexivity.
    + intros s t S T. rewrite (S4 s t S T), ANY. tauto.
    + intros s t S T. rewrite (S5 s t S T). cbn [in_some_seen]. rewrite (spec_iff (h_net h) _ _ s t (fun s t _ _ => ANY not_puppet s t)). tauto.
  - assert (F3 : Forall2 (fun mb m' => body_says h (entry_scopes G h) l (mkMember mb (Cst true)) m') (h_membs h) (k_membs P)).
    { unfold new_kind in F2. cbn [k_membs] in F2. clear - F2. revert F2. generalize (k_membs P). induction (h_membs h) as [|m ms IH]; intros ps F2; inversion F2; subst; constructor; auto. }
    apply f2_in in F3. apply f2_in_r in F3. apply (f2_impl _ _ _ _ _ _ F3). intros m m' (I' & I & [B1 B2 B3 B4 B5 B6 B7]). pose proof (go_state _ _ _ _ _ _ GO' m' I') as ST. destruct (ph_blank _ _ _ PH m I) as (k & vs & EB).
    cbn [mb_pc mb_invariant] in *. rewrite EB in *. cbn [p_assume p_puppet p_shadow p_permit p_forbid p_kind p_vbls] in *.
    destruct B1 as (A1 & A2 & A3 & A4). rewrite EB in A3, A4. cbn in A3, A4.
    assert (NF : forall s t, ~ FmlaSpec.steps (Cst false) s t) by (intros s t X; discriminate X).
    constructor; rewrite ?EB; cbn [p_kind p_vbls]; auto.
    + intros s S. rewrite (B2 s S). unfold ix. cbn [mb_pc]. split; [intros (_ & X); exact X|]. intros X. split; [reflexivity|exact X].
    + intros s S. rewrite (B3 s S). unfold ix. cbn [mb_pc]. split; [intros (_ & X); exact X|]. intros X. split; [reflexivity|exact X].
    + intros HD s t S T. rewrite (B4 HD s t S T). unfold ix. cbn [mb_pc]. split; [intros [X|X]; [destruct (NF _ _ X)|exact X]|]. intros X. right. exact X.
    + intros s t S T. rewrite (B5 s t S T). unfold ix. cbn [mb_pc]. split; [intros [X|X]; [destruct (NF _ _ X)|exact X]|]. intros X. right. exact X.
    + intros s t S T. rewrite (B6 s t S T). unfold ix. cbn [mb_pc]. split; [intros [X|X]; [destruct (NF _ _ X)|exact X]|]. intros X. right. exact X.
    + intros s t S T. rewrite (B7 s t S T). unfold ix. cbn [mb_pc]. split; [intros [X|X]; [destruct (NF _ _ X)|exact X]|]. intros X. right. exact X.
Qed.

(** ** The file *)
Lemma items_spec : forall l G Y Y' Ps, fine G Y -> every_item (proper_item ds) G l -> read_items consts arrays ds Y l = Some (Y', Ps) ->
  (forall s, ok ds s -> (holds (y_assume Y') s <-> holds (y_assume Y) s /\ every_item (in_all assumed s) G l)) /\
  (forall s, ok ds s -> (holds (y_invariant Y') s <-> holds (y_invariant Y) s /\ every_item (in_all demanded s) G l)) /\
  (forall s t, ok ds s -> ok ds t -> (FmlaSpec.steps (t_direct (y_totals Y')) s t <->
    FmlaSpec.steps (t_direct (y_totals Y)) s t \/ some_item (in_some not_shadow s t) G l)) /\
  (forall s t, ok ds s -> ok ds t -> (FmlaSpec.steps (t_shadow (y_totals Y')) s t <->
    FmlaSpec.steps (t_shadow (y_totals Y)) s t \/ some_item (in_some_seen not_puppet s t) G l)) /\
  kinds_say G l Ps /\ (state_fmla ds (y_assume Y') /\ state_fmla ds (y_invariant Y') /\ trans_fmla ds (t_direct (y_totals Y')) /\ trans_fmla ds (t_shadow (y_totals Y'))).
Proof.
  induction l as [|it l IH]; intros G Y Y' Ps F PR E; cbn [read_items every_item some_item] in *.
  - injection E as <- <-. split; [|split; [|split; [|split; [|split]]]]; try (intros; tauto); [reflexivity|]. destruct F; auto.
  - destruct PR as (PR1 & PR2). destruct it as [st|h body].
    + destruct (read_outside consts arrays ds Y st) as [Y1|] eqn:E1; [|discriminate]. destruct (outside_spec G Y st Y1 F PR1 E1) as (F1 & [I1 I2 I3 I4]).
      destruct (IH (after_outside G st) Y1 Y' Ps F1 PR2 E) as (H1 & H2 & H3 & H4 & H5 & H6). split; [|split; [|split; [|split; [|split; auto]]]].
      * intros s S. rewrite (H1 s S), (I1 s S). cbn [after_item]. tauto.
      * intros s S. rewrite (H2 s S), (I2 s S). cbn [after_item]. tauto.
      * intros s t S T. rewrite (H3 s t S T), (I3 s t S T). cbn [after_item]. tauto.
      * intros s t S T. rewrite (H4 s t S T), (I4 s t S T). cbn [after_item]. tauto.
    + destruct (read_body consts arrays h (Y, new_kind h) body) as [(Y1, P)|] eqn:E1; [|discriminate].
      destruct (read_items consts arrays ds Y1 l) as [(Y2, Ps2)|] eqn:E2; [|discriminate]. cbn in E. injection E as <- <-.
      destruct (inside_spec G Y h body Y1 P F PR1 E1) as (F1 & [I1 I2 I3 I4] & MS).
      destruct (IH G Y1 Y2 Ps2 F1 PR2 E2) as (H1 & H2 & H3 & H4 & H5 & H6). split; [|split; [|split; [|split; [|split; auto]]]].
      * intros s S. rewrite (H1 s S), (I1 s S). cbn [after_item]. tauto.
      * intros s S. rewrite (H2 s S), (I2 s S). cbn [after_item]. tauto.
      * intros s t S T. rewrite (H3 s t S T), (I3 s t S T). cbn [after_item]. tauto.
      * intros s t S T. rewrite (H4 s t S T), (I4 s t S T). cbn [after_item]. tauto.
      * cbn [kinds_say]. exists P, Ps2. auto.
Qed.
Lemma new_fine : proper_decls ds consts arrays -> fine (at_first consts arrays) new_sys.
Proof.
  intros [P1 P2 P3]. constructor; try apply cst_state; try apply cst_trans. constructor; cbn; auto; try constructor; try contradiction.
Qed.

(** ** Acceptance *)
Lemma outside_accepts : forall G Y st md, fine G Y -> proper_item ds G (Outside st) -> total_item ds G (Outside st) -> fits_mode Y md ->
  (forall md', In md' (modes_of [st]) -> md' = md) -> exists Y', read_outside consts arrays ds Y st = Some Y' /\ fits_mode Y' md.
Proof.
  intros G Y st md F PR T FM MD. destruct st as [x e|e|md' e|r a|a|a]; try contradiction T; cbn [read_outside]; cbn [proper_item total_item] in *.
  - destruct (C68_accepted ds _ _ _ [] e INH (fi_decl _ _ F) PR) as (A & _). specialize (A T). destruct (eval_f _ _ _ _ e) as [(pf, m)|]; [|contradiction]. eauto.
  - destruct (C68_accepted ds _ _ _ [] e INH (fi_decl _ _ F) PR) as (A & _). specialize (A T). destruct (eval_f _ _ _ _ e) as [(pf, m)|]; [|contradiction]. eauto.
  - rewrite (MD md' (or_introl eq_refl)). destruct (mode_accepts Y md FM) as (Y1 & EM). rewrite EM.
    destruct (C68_accepted ds _ _ _ [] e INH (fi_decl _ _ (fine_mode _ _ _ _ F EM)) PR) as (A & _). specialize (A T).
    destruct (eval_f _ _ _ _ e) as [(pf, m)|]; [|contradiction]. eexists. split; eauto. intros md0 E. cbn in E. destruct (mode_keeps _ _ _ EM) as (_ & _ & _ & _ & EY). congruence.
Qed.
Lemma items_accept : forall l G Y md, fine G Y -> every_item (proper_item ds) G l -> every_item (total_item ds) G l -> fits_mode Y md ->
  (forall md', In md' (modes l) -> md' = md) -> exists YP, read_items consts arrays ds Y l = Some YP.
Proof.
  induction l as [|it l IH]; intros G Y md F PR T FM MD; cbn [read_items every_item] in *; [eauto|].
  destruct PR as (PR1 & PR2), T as (T1 & T2). destruct it as [st|h body].
  - destruct (outside_accepts G Y st md F PR1 T1 FM) as (Y1 & E1 & FM1).
    { intros md' I. apply MD. unfold modes. cbn [flat_map]. apply in_or_app. auto. }
    rewrite E1. destruct (outside_spec G Y st Y1 F PR1 E1) as (F1 & _). apply (IH (after_outside G st) Y1 md); auto.
    intros md' I. apply MD. unfold modes in *. cbn [flat_map]. apply in_or_app. auto.
  - destruct PR1 as (PH & PRB). pose proof (enter G Y h F PH) as GO. pose proof (ph_doms _ _ _ PH) as DS.
    assert (INH' : inhabited (vdoms (h_net h))) by (rewrite DS; auto). assert (RK : wf_ids (vdoms (h_net h)) (random_vbls (h_net h))) by (rewrite DS; apply (ph_random _ _ _ PH)).
    destruct (body_accepts consts arrays h G INH' RK body (entry_scopes G h) Y (new_kind h) md GO) as (Y1 & P & E1 & FM1); auto.
    { intros m I. unfold new_kind in I. cbn in I. apply in_map_iff in I. destruct I as (mb & <- & I). rewrite DS. apply (T1 mb I). }
    { intros md' I. apply MD. unfold modes. cbn [flat_map]. apply in_or_app. auto. }
    rewrite E1. destruct (inside_spec G Y h body Y1 P F (conj PH PRB) E1) as (F1 & _).
    destruct (IH G Y1 md F1 PR2 T2 FM1) as (YP & E2). { intros md' I. apply MD. unfold modes in *. cbn [flat_map]. apply in_or_app. auto. }
    rewrite E2. cbn. eauto.
Qed.
End File.
