(** Lets in place: the value of an expanded tree; the variables that are accessed. *)
From Coq Require Import String List Arith Bool ZArith Lia.
From Verif Require Import FinLib Radix FmlaModel FmlaSpec FmlaProofs ActModel NetModel IntModel IntSpec IntProofs ExprModel ExprSpec ExprProofs ExprProofs2
  CmdModel CmdSpec ParseModel ParseSpec AccessModel AccessSpec.
Import ListNotations.
Local Open Scope list_scope.

Lemma expand_nil : forall n text e int, arith e -> expand n text [] int e = Some e.
Proof.
  intros n text e. destruct n; induction e; simpl; intros int H; try tauto; try (destruct (int || text); reflexivity); try (rewrite IHe by tauto; reflexivity);
  try (rewrite IHe1, IHe2 by tauto; reflexivity).
Qed.
Lemma assoc_in : forall A x (l : list (string * A)) v, assoc x l = Some v -> In (x, v) l.
Proof.
  induction l as [|[y a] l IH]; simpl; intros v H; [discriminate|]. destruct (String.eqb_spec x y).
  - injection H as <-. subst; auto.
  - right; auto.
Qed.
Lemma assoc_none : forall A x (l : list (string * A)), assoc x l = None <-> ~ In x (map fst l).
Proof.
  induction l as [|[y a] l IH]; simpl; [tauto|]. destruct (String.eqb_spec x y).
  - subst. split; [discriminate|tauto].
  - rewrite IH. split; [intros H [E|E]; [congruence|tauto]|tauto].
Qed.
(** A value that mentions no let stays as it is. *)
Lemma expand_free : forall L text n v, arith v -> (forall x, In x (names_in v) -> ~ In x (map fst L)) -> expand n text L true v = Some v.
Proof.
  intros L text n v H F. destruct n; induction v; simpl in *; try tauto; try reflexivity;
    try (rewrite IHv by auto; reflexivity);
    try (rewrite (proj2 (assoc_none _ x L)) by (apply F; auto); reflexivity);
    (rewrite IHv1, IHv2; [reflexivity| | | |]; try tauto; intros; apply F, in_or_app; auto).
Qed.
Definition good_lets (L : lmap) : Prop := forall x v, In (x, v) L -> arith v /\ forall y, In y (names_in v) -> ~ In y (map fst L).
Lemma expand_arith : forall L text n e, good_lets L -> 1 <= n \/ L = [] -> arith e ->
  exists e', expand n text L true e = Some e' /\ arith e' /\ expand n (negb text) L true e = Some e'.
Proof.
  intros L text n e GL N. assert (NAME : forall x t, exists e', expand n t L true (SName x) = Some e' /\ arith e' /\ e' = match assoc x L with Some v => v | None => SName x end).
  { intros x t. destruct N as [N| ->].
    - destruct n as [|n]; [lia|]. simpl. destruct (assoc x L) as [v|] eqn:A; [|exists (SName x); simpl; auto].
      apply assoc_in in A. destruct (GL _ _ A). exists v. split; auto. apply expand_free; auto.
    - exists (SName x). destruct n; simpl; auto. }
  induction e; intros H; simpl in H; try tauto.
  - destruct (NAME x text) as (e1 & E1 & A1 & Q1), (NAME x (negb text)) as (e2 & E2 & A2 & Q2). exists e1. split; [exact E1|]. split; [exact A1|]. rewrite E2. congruence.
  - exists (SNat n0). destruct n; simpl; auto.
  - destruct (IHe H) as (e' & E & A & E'). exists (SInt e'). destruct n; simpl in *; rewrite E, E'; simpl; auto.
  - destruct (IHe H) as (e' & E & A & E'). exists (SNeg e'). destruct n; simpl in *; rewrite E, E'; simpl; auto.
  - destruct H as [H1 H2]. destruct (IHe1 H1) as (e' & E & A & E'), (IHe2 H2) as (f' & EF & AF & EF'). exists (SBin op e' f').
    destruct n; simpl in *; rewrite E, E', EF, EF'; simpl; auto.
  - destruct (IHe H) as (e' & E & A & E'). exists (SAref x e'). destruct n; simpl in *; rewrite E, E'; simpl; auto.
Qed.

(** The indices and the lets, at the values that the latter have. *)
Definition lets_at (G : scope) (b : imap) (L : lmap) (s : list nat) : imap :=
  flat_map (fun nv => match value_of G b (snd nv) s with Some z => [(fst nv, z)] | None => [] end) L ++ b.
Lemma lets_at_some : forall G b s L x v z, assoc x L = Some v -> value_of G b v s = Some z -> assoc x (lets_at G b L s) = Some z.
Proof.
  unfold lets_at. induction L as [|[y w] L IH]; simpl; intros x v z A V; [discriminate|]. destruct (String.eqb_spec x y).
  - injection A as <-. subst. rewrite V. simpl. rewrite String.eqb_refl. reflexivity.
  - destruct (value_of G b w s) as [zw|]; simpl; [|eauto]. destruct (String.eqb_spec x y); [congruence|]. eauto.
Qed.
Lemma lets_at_none : forall G b s L x, assoc x L = None -> assoc x (lets_at G b L s) = assoc x b.
Proof.
  unfold lets_at. induction L as [|[y w] L IH]; simpl; intros x A; [reflexivity|]. destruct (String.eqb_spec x y); [discriminate|].
  destruct (value_of G b w s) as [zw|]; simpl; [|eauto]. destruct (String.eqb_spec x y); [congruence|]. eauto.
Qed.
Lemma expand_int : forall n text L i e, expand n text L i (SInt e) = option_map SInt (expand n text L i e).
Proof. intros; destruct n; reflexivity. Qed.
Lemma expand_neg : forall n text L i e, expand n text L i (SNeg e) = option_map SNeg (expand n text L true e).
Proof. intros; destruct n; reflexivity. Qed.
Lemma expand_bin : forall n text L i op a b, expand n text L i (SBin op a b) = map2 (SBin op) (expand n text L true a) (expand n text L true b).
Proof. intros; destruct n; reflexivity. Qed.
Lemma expand_aref : forall n text L i x e, expand n text L i (SAref x e) = option_map (SAref x) (expand n text L true e).
Proof. intros; destruct n; reflexivity. Qed.
Lemma expand_means : forall G b s L text n, good_lets L -> 1 <= n \/ L = [] -> forall e e', arith e -> expand n text L true e = Some e' ->
  forall z, value_of G b e' s = Some z -> value_of G (lets_at G b L s) e s = Some z.
Proof.
  intros G b s L text n GL N. induction e; intros e' H E z V; simpl in H; try tauto.
  - assert (Q : e' = match assoc x L with Some v => v | None => SName x end).
    { destruct N as [N| ->]; [|destruct n; simpl in *; congruence]. destruct n as [|n]; [lia|]. simpl in E. destruct (assoc x L) as [v|] eqn:A; [|congruence].
      apply assoc_in in A. destruct (GL _ _ A) as [A1 A2]. pose proof (expand_free L text n v A1 A2). congruence. }
    subst e'. change (int_named G (lets_at G b L s) x = Some z). unfold int_named. destruct (assoc x L) as [v|] eqn:A.
    + rewrite (lets_at_some G b s L x v z A V). reflexivity.
    + rewrite (lets_at_none G b s L x A). exact V.
  - assert (Q : e' = SNat n0) by (destruct n; simpl in E; congruence). subst e'. exact V.
  - assert (X : exists a, expand n text L true e = Some a /\ e' = SInt a).
    { rewrite expand_int in E. destruct (expand n text L true e) as [a|]; simpl in E; try discriminate; injection E as <-; eauto. }
    destruct X as (a & E1 & ->). simpl in *. eapply IHe; eauto.
  - assert (X : exists a, expand n text L true e = Some a /\ e' = SNeg a).
    { rewrite expand_neg in E. destruct (expand n text L true e) as [a|]; simpl in E; try discriminate; injection E as <-; eauto. }
    destruct X as (a & E1 & ->). simpl in *. destruct (value_of G b a s) eqn:V1; [|discriminate]. rewrite (IHe a H E1 _ V1). exact V.
  - assert (X : exists a c, expand n text L true e1 = Some a /\ expand n text L true e2 = Some c /\ e' = SBin op a c).
    { rewrite expand_bin in E. destruct (expand n text L true e1) as [a|]; simpl in E; try discriminate; destruct (expand n text L true e2) as [c|]; simpl in E; try discriminate; injection E as <-; eauto. }
    destruct X as (a & c & E1 & E2 & ->), H as [H1 H2]. simpl in *. destruct (value_of G b a s) eqn:V1; [|discriminate]. destruct (value_of G b c s) eqn:V2; [|discriminate].
    rewrite (IHe1 a H1 E1 _ V1), (IHe2 c H2 E2 _ V2). exact V.
  - assert (X : exists a, expand n text L true e = Some a /\ e' = SAref x a).
    { rewrite expand_aref in E. destruct (expand n text L true e) as [a|]; simpl in E; try discriminate; injection E as <-; eauto. }
    destruct X as (a & E1 & ->). simpl in *. destruct (value_of G b a s) eqn:V1; [|discriminate]. rewrite (IHe a H E1 _ V1). exact V.
Qed.

(** ** The variables *)
Lemma arith_fresh : forall e used, arith e -> fresh_indices used e.
Proof. induction e; simpl; intros used H; try tauto; first [solve [auto] | destruct H; auto]. Qed.
Lemma arith_ext : forall G b b' s e, (forall x, assoc x b = assoc x b') -> arith e -> value_of G b e s = value_of G b' e s.
Proof.
  intros G b b' s e EX. induction e; simpl; intros H; try tauto.
  - unfold int_named. rewrite EX. reflexivity.
  - rewrite IHe; auto.
  - destruct H. rewrite IHe1, IHe2; auto.
  - rewrite IHe; auto.
Qed.
Lemma assoc_app : forall A x (l l' : list (string * A)), assoc x (l ++ l') = match assoc x l with Some v => Some v | None => assoc x l' end.
Proof. induction l as [|[y a] l IH]; simpl; intros l'; [reflexivity|]. destruct (String.eqb x y); auto. Qed.
Lemma assoc_unique : forall A x v (l : list (string * A)), NoDup (map fst l) -> In (x, v) l -> assoc x l = Some v.
Proof.
  induction l as [|[y a] l IH]; simpl; intros ND H; [destruct H|]. inversion ND; subst. destruct H as [E|H].
  - injection E as -> ->. rewrite String.eqb_refl. reflexivity.
  - destruct (String.eqb_spec x y); [|auto]. subst. exfalso. apply H2. apply in_map_iff. exists (y, v). auto.
Qed.
Lemma assoc_rev : forall A x (l : list (string * A)), NoDup (map fst l) -> assoc x (rev l) = assoc x l.
Proof.
  intros A x l ND. destruct (assoc x l) as [v|] eqn:E.
  - apply assoc_in in E. apply assoc_unique; [rewrite map_rev; apply NoDup_rev; auto|]. apply in_rev. rewrite rev_involutive. auto.
  - apply assoc_none in E. apply assoc_none. rewrite map_rev. intros H. apply E. apply in_rev. auto.
Qed.
Lemma lets_at_assoc : forall G b s L x, NoDup (map fst L) -> assoc x (lets_at G b L s) =
  match assoc x L with Some v => match value_of G b v s with Some z => Some z | None => assoc x b end | None => assoc x b end.
Proof.
  unfold lets_at. induction L as [|[y w] L IH]; intros x ND; [reflexivity|]. inversion ND as [|? ? NI ND']; subst. cbn [flat_map fst snd assoc].
  rewrite <- app_assoc. rewrite assoc_app. destruct (String.eqb_spec x y).
  - subst y. destruct (value_of G b w s) as [z|]; cbn; [rewrite String.eqb_refl; reflexivity|]. rewrite IH by auto.
    rewrite (proj2 (assoc_none _ x L)) by auto. reflexivity.
  - destruct (value_of G b w s) as [z|]; cbn; [destruct (String.eqb_spec x y); [congruence|]|]; apply IH; auto.
Qed.
Lemma lets_at_rev : forall G b s L x, NoDup (map fst L) -> assoc x (lets_at G b (rev L) s) = assoc x (lets_at G b L s).
Proof.
  intros G b s L x ND. rewrite !lets_at_assoc; auto; [|rewrite map_rev; apply NoDup_rev; auto]. rewrite assoc_rev by auto. reflexivity.
Qed.
Lemma combine_fst : forall A B (l : list A) (l' : list B), length l' = length l -> map fst (combine l l') = l.
Proof. induction l; intros [|y l'] H; simpl in *; try discriminate; auto. f_equal; auto. Qed.
Lemma combine_in : forall A B (l : list A) (l' : list B) x y, In (x, y) (combine l l') -> In x l /\ In y l'.
Proof. intros; split; [eapply in_combine_l|eapply in_combine_r]; eauto. Qed.
Lemma tuple_good : forall names tuple, Forall (fun v => arith v /\ forall x, In x (names_in v) -> ~ In x names) tuple -> length tuple = length names ->
  good_lets (rev (combine names tuple)).
Proof.
  intros names tuple H L x v I. apply in_rev in I. apply combine_in in I. destruct I as [I1 I2]. rewrite Forall_forall in H. destruct (H v I2) as [A B].
  split; auto. intros y Y. rewrite map_rev, combine_fst by auto. intros I. apply in_rev in I. eapply B; eauto.
Qed.
Lemma depth : forall L : lmap, 1 <= length L \/ L = [].
Proof. destruct L; simpl; auto. left; lia. Qed.

(** A declared access with the lets it is declared with. *)
Inductive declared : list pdecl -> list (vref * lmap) -> Prop := decl_nil : declared [] []
| decl_access : forall r ds l, declared ds l -> declared (PAccess r :: ds) ((r, []) :: l)
| decl_links : forall names vals vs ds l, declared ds l ->
    declared (PLinks names vals vs :: ds) (flat_map (fun r => map (fun tuple => (r, rev (combine names tuple))) vals) vs ++ l).
Lemma declared_exists : forall ds, exists l, declared ds l.
Proof. induction ds as [|[r|names vals vs] ds [l IH]]; [exists []; constructor| |]; eexists; constructor; eauto. Qed.
Definition plain_pair (rl : vref * lmap) : Prop := arith (snd (fst rl)) /\ good_lets (snd rl) /\ NoDup (map fst (snd rl)).
Lemma declared_plain : forall idx ds l, declared ds l -> Forall (plain_decl idx) ds -> Forall plain_pair l.
Proof.
  intros idx ds l H. induction H as [|r ds l H IH|names vals vs ds l H IH]; intros P; inversion P as [|? ? P1 P2]; subst; constructor || apply Forall_app; auto.
  - destruct r as [[t x] i]. split; [exact P1|]. split; [intros y v []|constructor].
  - destruct P1 as (ND & NI & FV & FS). split; auto. apply Forall_forall. intros [r L] I. apply in_flat_map in I. destruct I as (r' & R & I).
    apply in_map_iff in I. destruct I as (tuple & E & T). injection E as <- <-. rewrite Forall_forall in *. destruct (FV tuple T) as [LT FT]. specialize (FS r' R).
    split; [exact FS|]. split; [apply tuple_good; auto|]. cbn [snd]. rewrite map_rev, combine_fst by auto. apply NoDup_rev; auto.
Qed.
Lemma all_parsed_some : forall A (l : list (option A)) r, all_parsed l = Some r <-> l = map Some r.
Proof.
  induction l as [|[x|] l IH]; simpl; intros r.
  - split; [intros E; injection E as <-; reflexivity|destruct r; [reflexivity|discriminate]].
  - destruct (all_parsed l) as [l'|].
    + specialize (IH l'). destruct IH as [IH _]. specialize (IH eq_refl). subst l. simpl. split; [intros E; injection E as <-; reflexivity|].
      destruct r as [|y r]; [discriminate|]. simpl. intros E. injection E as -> E. f_equal. f_equal.
      assert (INJ : forall (a b : list A), map Some a = map Some b -> a = b) by (induction a; destruct b; simpl; intros Q; try discriminate; auto; injection Q as -> Q; f_equal; auto). auto.
    + simpl. split; [discriminate|]. destruct r as [|y r]; [discriminate|]. simpl. intros E. injection E as _ E. apply IH in E. discriminate.
  - split; [discriminate|]. destruct r; discriminate.
Qed.
Lemma declared_slots : forall idx ds l, declared ds l -> Forall (plain_decl idx) ds ->
  exists sls, all_slots ds = Some sls /\ Forall2 (fun rl sl => slot_of (snd rl) (fst rl) = Some sl) l sls.
Proof.
  intros idx ds l H P. pose proof (declared_plain idx ds l H P) as PP. revert P PP. induction H as [|r ds l H IH|names vals vs ds l H IH]; intros P PP.
  - exists []. split; [reflexivity|constructor].
  - inversion P as [|? ? P1 P2]; subst. inversion PP as [|? ? Q1 Q2]; subst. destruct (IH P2 Q2) as (sls & E & F2). destruct r as [[t x] i]. destruct Q1 as (A & _ & _). cbn [fst snd] in A.
    assert (S : slot_of [] (t, x, i) = Some (mkSlot t x i i)) by (unfold slot_of, expanded; rewrite !expand_nil by auto; reflexivity).
    exists (mkSlot t x i i :: sls). split; [|constructor; auto]. cbn [all_slots fold_right]. fold (all_slots ds). rewrite E. unfold decl_slots. rewrite S. reflexivity.
  - inversion P as [|? ? P1 P2]; subst. apply Forall_app in PP. destruct PP as [Q1 Q2]. destruct (IH P2 Q2) as (sls & E & F2).
    destruct P1 as (ND & NI & FV & FS).
    set (l1 := flat_map (fun r : vref => map (fun tuple => (r, rev (combine names tuple))) vals) vs) in *.
    assert (X : exists sls1, Forall2 (fun rl sl => slot_of (snd rl) (fst rl) = Some sl) l1 sls1).
    { clear - Q1. induction Q1 as [|[[[t x] i] L] l1 (A & GL & ND) _ (sls1 & IH)]; [exists []; constructor|]. cbn [fst snd] in *.
      destruct (expand_arith L false (length L) i GL (depth L) A) as (e' & E1 & _ & E2).
      exists (mkSlot t x e' e' :: sls1). constructor; auto. cbn [fst snd slot_of]. unfold expanded. rewrite E1. cbn [negb] in E2. rewrite E2. reflexivity. }
    destruct X as (sls1 & F1). exists (sls1 ++ sls). split; [|apply Forall2_app; auto].
    cbn [all_slots fold_right]. fold (all_slots ds). rewrite E. unfold option_app. unfold decl_slots.
    replace (all_parsed _) with (Some sls1); [reflexivity|]. symmetry. apply all_parsed_some.
    assert (M : flat_map (fun r : vref => map (fun tuple => match tuple_lets names tuple with Some L => slot_of L r | None => None end) vals) vs = map (fun rl : vref * lmap => slot_of (snd rl) (fst rl)) l1).
    { unfold l1. clear - FV. induction vs as [|r vs IH]; [reflexivity|]. cbn [flat_map]. rewrite map_app. f_equal; [|exact IH]. rewrite map_map. apply map_ext_in. intros tuple T.
      rewrite Forall_forall in FV. destruct (FV tuple T) as [L _]. unfold tuple_lets. rewrite <- L, Nat.eqb_refl. reflexivity. }
    rewrite M. clear - F1. induction F1; simpl; [reflexivity|]. f_equal; auto.
Qed.

Section Vbls.
Variable ds : list nat.
Hypothesis INH : inhabited ds.
Variable F : file.
Variable idx : string.
Variable lets : list (string * list Z).
Variable preds : list (string * list fmla).
Notation slot_vbl := (slot_vbl ds F idx lets preds).
Notation add_accesses := (add_accesses ds F idx lets preds).
Lemma declares_vbls : forall n vs G, declares ds F (Some (mkUse lets preds n [])) G -> declares ds F (Some (mkUse lets preds n vs)) G.
Proof. intros n vs G [H1 H2 H3 H4 H5 H6 H7 H8 H9 H10]. constructor; auto. Qed.
Lemma slot_means : forall d G t x i L sl v, declares ds F (Some (mkUse lets preds (d_number d) [])) G ->
  plain_pair ((t, x, i), L) -> slot_of L (t, x, i) = Some sl -> slot_vbl d sl = Some v ->
  forall s, ok ds s -> cell G (lets_at G [(idx, d_index d)] L s) x i s = Some v /\ cell G [(idx, d_index d)] (sl_array sl) (sl_index sl) s = Some v.
Proof.
  intros d G t x i L sl v D (A & GL & ND) S V s OK. cbn [fst snd] in *. unfold slot_of in S. 
  destruct (expanded false L i) as [e1|] eqn:E1; [|discriminate]. destruct (expanded true L i) as [e2|] eqn:E2; [|discriminate]. injection S as <-.
  unfold AccessModel.slot_vbl in V. cbn [sl_index sl_array] in V.
  destruct (eval_i ds F _ _ e1) as [[z m]|] eqn:EV; [|discriminate]. destruct (i_map z) as [|k [|]] eqn:IM; try discriminate.
  assert (A1 : arith e1). { destruct (expand_arith L false (length L) i GL (depth L) A) as (e' & X & Y & _). unfold expanded in E1. congruence. }
  apply declares_vbls with (vs := d_vbls d) in D.
  destruct (sound ds INH F _ G D e1 (set_key idx (d_index d) []) [(idx, d_index d)] [idx]) as (_ & SD).
  - intros y; reflexivity.
  - intros y. cbn. destruct (String.eqb_spec y idx); [auto|contradiction].
  - apply arith_fresh; auto.
  - destruct (SD _ _ EV) as (_ & TZ & VZ). specialize (VZ s OK). rewrite (single ds z k TZ IM s OK) in VZ.
    pose proof VZ as VZ1. apply (expand_means G _ s L false (length L) GL (depth L) i e1 A E1) in VZ. unfold cell. cbn [sl_array sl_index]. rewrite VZ, VZ1.
    rewrite (d_arrays _ _ _ _ D) in V. destruct (assoc x (g_arrays G)) as [l|]; [|discriminate]. split; exact V.
Qed.
Lemma fold_none : forall sls, fold_left (fun acc sl => match acc with Some ms => add_access ds F idx lets preds ms sl | None => None end) sls None = None.
Proof. induction sls; simpl; auto. Qed.
Lemma f2_refl : forall A (R : A -> A -> Prop) l, (forall x, In x l -> R x x) -> Forall2 R l l.
Proof. induction l; intros H; constructor; simpl in *; auto. Qed.
Lemma accesses_mean : forall (G : nat -> scope) l sls, Forall plain_pair l -> Forall2 (fun rl sl => slot_of (snd rl) (fst rl) = Some sl) l sls ->
  forall ms ms', Forall (fun d => declares ds F (Some (mkUse lets preds (d_number d) [])) (G (d_number d))) ms -> add_accesses ms sls = Some ms' ->
  Forall2 (fun d d' => d_number d' = d_number d /\ d_index d' = d_index d /\ exists vs, d_vbls d' = d_vbls d ++ vs /\
    forall s, ok ds s -> map (fun rl => cell (G (d_number d)) (lets_at (G (d_number d)) [(idx, d_index d)] (snd rl) s) (snd (fst (fst rl))) (snd (fst rl)) s) l = map Some vs /\
      Forall2 (fun sl v => cell (G (d_number d)) [(idx, d_index d)] (sl_array sl) (sl_index sl) s = Some v) sls vs) ms ms'.
Proof.
  intros G l sls PP F2. induction F2 as [|rl sl l sls S F2 IH]; intros ms ms' D A.
  - injection A as <-. apply f2_refl. intros d I. split; auto. split; auto. exists []. split; [rewrite app_nil_r; auto|auto].
  - inversion PP as [|? ? P1 P2]; subst. unfold AccessModel.add_accesses in A. cbn [fold_left] in A.
    destruct (add_access ds F idx lets preds ms sl) as [ms1|] eqn:E1; [|rewrite fold_none in A; discriminate].
    unfold add_access in E1. destruct (assoc (sl_array sl) (f_arrays F)) as [known|]; [|discriminate]. apply all_parsed_some in E1.
    assert (F1 : Forall2 (fun d d' => d_number d' = d_number d /\ d_index d' = d_index d /\ exists v, slot_vbl d sl = Some v /\ d_vbls d' = d_vbls d ++ [v]) ms ms1).
    { clear - E1. revert ms1 E1. induction ms as [|d ms IH]; intros [|d' ms1] E; simpl in E; try discriminate; constructor.
      - injection E as E _. destruct (slot_vbl d sl) as [v|]; simpl in E; [|discriminate]. injection E as <-. simpl. split; auto. split; auto. eauto.
      - injection E as _ E. auto. }
    assert (D1 : Forall (fun d => declares ds F (Some (mkUse lets preds (d_number d) [])) (G (d_number d))) ms1).
    { clear - F1 D. induction F1 as [|d d' ms ms1 (E & _) _ IH]; constructor; inversion D; subst; auto. rewrite E; auto. }
    specialize (IH P2 ms1 ms' D1 A). clear - F1 IH D S P1 INH. revert ms' IH D.
    induction F1 as [|d d' ms ms1 (E1 & E2 & v & V & E3) F1 IHF]; intros ms' IH D; inversion IH as [|? d2 ? ms2 (Q1 & Q2 & vs & Q3 & Q4) R]; subst; constructor.
    + rewrite E1 in *. rewrite E2 in *. split; [congruence|]. split; [congruence|]. exists (v :: vs). split; [rewrite Q3, E3, <- app_assoc; reflexivity|].
      intros s OK. destruct (Q4 s OK) as [Q5 Q6]. inversion D as [|? ? D0 _]; subst. destruct rl as [[[t x] i] L]. destruct (slot_means d (G (d_number d)) t x i L sl v D0 P1 S V s OK) as [M1 M2].
      split; [|constructor; auto]. simpl. rewrite Q5. f_equal. exact M1.
    + apply IHF; auto. inversion D; auto.
Qed.
End Vbls.
Lemma accessed_declared : forall G idx k s ds l, declared ds l -> Forall (plain_decl idx) ds ->
  flat_map (accessed G [(idx, k)] s) ds = map (fun rl : vref * lmap => (fst (fst (fst rl)), snd (fst (fst rl)), cell G (lets_at G [(idx, k)] (snd rl) s) (snd (fst (fst rl))) (snd (fst rl)) s)) l.
Proof.
  intros G idx k s ds l H. induction H as [|r ds l H IH|names vals vs ds l H IH]; intros P; [reflexivity| |]; inversion P as [|? ? P1 P2]; subst.
  - simpl. rewrite IH by auto. destruct r as [[t x] i]. reflexivity.
  - cbn [flat_map accessed]. rewrite map_app. f_equal; [|exact (IH P2)]. destruct P1 as (ND & NI & FV & FS). clear - ND FV FS.
    induction FS as [|[[t x] i] vs A FS IH]; [reflexivity|]. cbn [flat_map]. rewrite map_app. f_equal; [|exact IH]. rewrite map_map. apply map_ext_in. intros tuple T. cbn [fst snd].
    f_equal. unfold cell. rewrite Forall_forall in FV. destruct (FV tuple T) as [L _].
    erewrite arith_ext; [reflexivity| |exact A]. intros y. unfold with_links. fold (lets_at G [(idx, k)] (combine names tuple) s). symmetry. apply lets_at_rev. rewrite combine_fst; auto.
Qed.
Lemma kind_slots : forall dims roles F ds l sls, declared ds l -> Forall2 (fun rl sl => slot_of (snd rl) (fst rl) = Some sl) l sls ->
  map (slot_access dims roles F) sls = accs (declare (map (kind_decl dims roles F) ds)).
Proof.
  intros dims roles F ds l sls H F2.
  assert (E1 : map (slot_access dims roles F) sls = map (fun rl : vref * lmap => array_access dims roles F (fst (fst (fst rl))) (snd (fst (fst rl)))) l).
  { clear H. induction F2 as [|[[[t x] i] L] sl l sls S _ IH]; [reflexivity|]. simpl. rewrite IH. f_equal. cbn [fst snd slot_of] in S.
    destruct (expanded false L i); [|discriminate]. destruct (expanded true L i); [|discriminate]. injection S as <-. reflexivity. }
  rewrite E1. clear E1 F2. cbn [declare accs]. induction H as [|r ds l H IH|names vals vs ds l H IH]; [reflexivity|simpl; rewrite IH; reflexivity|].
  rewrite map_app. cbn [map flat_map kind_decl decl_accs]. f_equal; [|exact IH]. clear.
  induction vs as [|r vs IH]; [reflexivity|]. cbn [map flat_map]. rewrite map_app. f_equal; [|exact IH]. rewrite map_map. cbn [fst].
  clear IH. induction vals as [|v vals IH]; simpl; [reflexivity|]. f_equal. exact IH.
Qed.
