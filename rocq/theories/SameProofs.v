(** Proofs about the instances of one file. *)
From Coq Require Import String List Arith Bool ZArith Lia.
From Verif Require Import FinLib Radix CmdModel ParseModel AccessModel FmlaModel ActModel ActSpec NetModel ExprModel DeclModel HeadModel HeadSpec HeadProofs2
  InstModel SameModel SameSpec.
Import ListNotations.
Local Open Scope list_scope.
Local Open Scope nat_scope.

(** ** Declarations of variables *)
Lemma eval_gtz_pos : forall ds F P m e n, eval_gtz ds F P m e = Some n -> 0 < n.
Proof.
  intros ds F P m e n H. unfold eval_gtz in H. destruct (eval_int ds F P m e) as [k|]; [|discriminate].
  destruct (Z.ltb_spec 0 k); [|discriminate]. injection H as <-. lia.
Qed.
Lemma vdecls_kept : forall C l symms symms', read_vdecls C symms l = Some symms' ->
  map vs_name symms' = map vs_name symms ++ map vd_name l /\ map vs_role symms' = map vs_role symms ++ map vd_role l /\
  (Forall (fun a => 0 < vs_size a) symms -> Forall (fun a => 0 < vs_size a) symms').
Proof.
  intros C. induction l as [|d l IH]; intros symms symms' H; cbn [read_vdecls] in H.
  - injection H as <-. cbn. rewrite !app_nil_r. auto.
  - destruct (add_variables C symms d) as [s1|] eqn:A; [|discriminate]. destruct (IH _ _ H) as (I1 & I2 & I3).
    unfold add_variables in A. destruct (eval_gtz [] (const_file C) None [] (vd_size d)) as [n|] eqn:EN; [|discriminate].
    destruct (eval_gtz [] (const_file C) None [] (vd_dom d)) as [z|]; [|discriminate]. injection A as <-.
    rewrite I1, I2, !map_app, <- !app_assoc. split; [reflexivity|split; [reflexivity|]]. intros F. apply I3. apply Forall_app. split; [exact F|].
    constructor; [|constructor]. cbn. exact (eval_gtz_pos _ _ _ _ _ _ EN).
Qed.

(** ** The arrays that are accessed *)
Lemma known_arrays : forall ds F idx lets preds sls ms ms', add_accesses ds F idx lets preds ms sls = Some ms' ->
  Forall (fun sl => assoc (sl_array sl) (f_arrays F) <> None) sls.
Proof.
  intros ds F idx lets preds. induction sls as [|sl sls IH]; intros ms ms' A; [constructor|].
  unfold add_accesses in A. cbn [fold_left] in A. unfold add_access in A at 2. destruct (assoc (sl_array sl) (f_arrays F)) as [w|] eqn:E.
  - constructor; [congruence|]. 
    destruct (all_parsed _) as [ms1|] in A; [exact (IH ms1 ms' A)|]. exfalso. clear - A. induction sls as [|s sls IH]; cbn in A; [discriminate|exact (IH A)].
  - exfalso. clear - A. induction sls as [|s sls IH]; cbn in A; [discriminate|exact (IH A)].
Qed.

Section Two.
Variables s1 s2 : list vsymm.
Hypothesis NAMES : map vs_name s1 = map vs_name s2.
Hypothesis ROLES : map vs_role s1 = map vs_role s2.
Hypothesis POS1 : Forall (fun a => 0 < vs_size a) s1.
Hypothesis POS2 : Forall (fun a => 0 < vs_size a) s2.

Lemma last_same : forall x a b, last_named x s1 a -> last_named x s2 b -> a = b.
Proof.
  assert (TR : forall l l' x a b, map vs_name l = map vs_name l' -> last_named x l a -> last_named x l' b -> b <= a).
  { intros l l' x a b EN [_ M] [(d & E & N) _]. apply (f_equal (fun q => nth_error q b)) in EN. rewrite !nth_error_map, E in EN.
    destruct (nth_error l b) as [d'|] eqn:E'; [|discriminate]. cbn in EN. injection EN as EN. apply (M b d' E'). congruence. }
  intros x a b H1 H2. pose proof (TR _ _ _ _ _ NAMES H1 H2). pose proof (TR _ _ _ _ _ (eq_sym NAMES) H2 H1). lia.
Qed.
Definition T (s : list vsymm) : vtable := commit_variables (map vs_size s).
Lemma array_role : forall s, Forall (fun a => 0 < vs_size a) s -> forall F t x, f_arrays F = table_arrays s (T s) ->
  assoc x (f_arrays F) <> None -> exists a d, last_named x s a /\ nth_error s a = Some d /\
    array_access (table_doms s (T s)) (table_roles s (T s)) F t x = {| a_type := t; a_role := vs_role d; a_dom := vs_dom d |}.
Proof.
  intros s PS F t x EF K. pose proof (numbered_spec s) as NB. cbv zeta in NB. fold (T s) in NB.
  pose proof (nb_arrays _ _ _ _ _ NB x) as AX. rewrite <- EF in AX. destruct (assoc x (f_arrays F)) as [vs|] eqn:E; [|congruence].
  destruct AX as (a & d & L & D & EV). exists a, d. split; [exact L|]. split; [exact D|].
  pose proof (proj1 (Forall_forall _ _) PS d (nth_error_In _ _ D)) as P. cbv beta in P.
  unfold array_access. rewrite E, EV. destruct (vs_size d) as [|n] eqn:SZ; [lia|]. cbn [seq map].
  destruct (nb_known _ _ _ _ _ NB a d 0 D) as [K1 K2]; [lia|].
  rewrite (nth_error_nth _ _ Direct K2), (nth_error_nth _ _ 0 K1). reflexivity.
Qed.
Lemma array_like : forall F1 F2 t x, f_arrays F1 = table_arrays s1 (T s1) -> f_arrays F2 = table_arrays s2 (T s2) ->
  assoc x (f_arrays F1) <> None -> assoc x (f_arrays F2) <> None ->
  like_access (array_access (table_doms s1 (T s1)) (table_roles s1 (T s1)) F1 t x) (array_access (table_doms s2 (T s2)) (table_roles s2 (T s2)) F2 t x).
Proof.
  intros F1 F2 t x E1 E2 K1 K2. destruct (array_role s1 POS1 F1 t x E1 K1) as (a & d & L1 & D1 & ->).
  destruct (array_role s2 POS2 F2 t x E2 K2) as (b & e & L2 & D2 & ->). split; [reflexivity|]. cbn [a_role].
  pose proof (last_same x a b L1 L2). subst b. apply (f_equal (fun q => nth_error q a)) in ROLES. rewrite !nth_error_map, D1, D2 in ROLES.
  cbn in ROLES. congruence.
Qed.

(** ** Kinds *)
Lemma shape_symms : forall ds1 ro1 F1 ds2 ro2 F2 l b, decl_symms b (map (decl_shape ds1 ro1 F1) l) = decl_symms b (map (decl_shape ds2 ro2 F2) l).
Proof.
  intros ds1 ro1 F1 ds2 ro2 F2. induction l as [|[((t, x), i)|names vals vs] l IH]; intros b; cbn; [reflexivity|apply IH|].
  rewrite !map_length, IH. reflexivity.
Qed.
Lemma head_kind : forall ds roles F ks ps k h, read_head ds roles F ks ps k = Some h ->
  exists sls, all_slots (kd_vbls k) = Some sls /\ Forall (fun sl => assoc (sl_array sl) (f_arrays F) <> None) sls /\
    kinds (h_net h) = ks ++ [{| accs := map (slot_access ds roles F) sls; symms := decl_symms 0 (map (decl_shape ds roles F) (kd_vbls k)) |}].
Proof.
  intros ds roles F ks ps k h H. unfold read_head in H. destruct (eval_nat ds F None [] (kd_num k)) as [n|]; [|discriminate].
  destruct (indices_of ds F k n) as [zs|]; [|discriminate]. destruct (read_lets ds F (kd_idx k) zs [] (kd_lets k)) as [lets|]; [|discriminate].
  destruct (all_slots (kd_vbls k)) as [sls|]; [|discriminate]. exists sls. split; [reflexivity|].
  destruct (add_accesses _ _ _ _ _ _ sls) as [drafts|] eqn:EA; [|discriminate]. split; [exact (known_arrays _ _ _ _ _ _ _ _ EA)|].
  injection H as <-. reflexivity.
Qed.
Lemma head_like : forall F1 F2 ks1 ks2 ps1 ps2 k h1 h2, f_arrays F1 = table_arrays s1 (T s1) -> f_arrays F2 = table_arrays s2 (T s2) ->
  Forall2 like_kind ks1 ks2 ->
  read_head (table_doms s1 (T s1)) (table_roles s1 (T s1)) F1 ks1 ps1 k = Some h1 ->
  read_head (table_doms s2 (T s2)) (table_roles s2 (T s2)) F2 ks2 ps2 k = Some h2 ->
  Forall2 like_kind (kinds (h_net h1)) (kinds (h_net h2)) /\
  length (kinds (h_net h1)) = S (length ks1).
Proof.
  intros F1 F2 ks1 ks2 ps1 ps2 k h1 h2 E1 E2 L H1 H2. destruct (head_kind _ _ _ _ _ _ _ H1) as (sls & A & K1 & ->).
  destruct (head_kind _ _ _ _ _ _ _ H2) as (sls' & A' & K2 & ->). rewrite A in A'. injection A' as <-.
  split; [|rewrite app_length; cbn; lia]. apply Forall2_app; [exact L|]. constructor; [|constructor]. split; cbn [accs symms].
  - clear A H1 H2. induction sls as [|sl sls IH]; cbn; constructor.
    + inversion K1; subst. inversion K2; subst. apply array_like; auto.
    + inversion K1; subst. inversion K2; subst. auto.
  - apply shape_symms.
Qed.
Lemma entries_like : forall C1 C2 l Y1 Y2 ks1 ks2 ps1 ps2 Y1' Y2' Ps1 Ps2 its1 its2, Forall2 like_kind ks1 ks2 ->
  read_entries C1 (table_arrays s1 (T s1)) (table_doms s1 (T s1)) (table_roles s1 (T s1)) Y1 ks1 ps1 l = Some (Y1', Ps1, its1) ->
  read_entries C2 (table_arrays s2 (T s2)) (table_doms s2 (T s2)) (table_roles s2 (T s2)) Y2 ks2 ps2 l = Some (Y2', Ps2, its2) ->
  Forall2 like_kind (fold_left later_kinds its1 ks1) (fold_left later_kinds its2 ks2) /\
  length (fold_left later_kinds its1 ks1) = length ks1 + length (filter (fun e => match e with Kind _ _ => true | General _ => false end) l).
Proof.
  intros C1 C2. induction l as [|[st|k body] l IH]; intros Y1 Y2 ks1 ks2 ps1 ps2 Y1' Y2' Ps1 Ps2 its1 its2 L H1 H2; cbn [read_entries] in H1, H2.
  - injection H1 as <- <- <-. injection H2 as <- <- <-. cbn. split; [exact L|lia].
  - destruct (read_outside C1 _ _ Y1 st) as [Z1|]; [|discriminate]. destruct (read_outside C2 _ _ Y2 st) as [Z2|]; [|discriminate].
    destruct (read_entries C1 _ _ _ Z1 ks1 ps1 l) as [((a1, b1), c1)|] eqn:R1; [|discriminate].
    destruct (read_entries C2 _ _ _ Z2 ks2 ps2 l) as [((a2, b2), c2)|] eqn:R2; [|discriminate].
    cbn in H1, H2. injection H1 as <- <- <-. injection H2 as <- <- <-. cbn [fold_left later_kinds filter].
    exact (IH _ _ _ _ _ _ _ _ _ _ _ _ L R1 R2).
  - destruct (read_head (table_doms s1 (T s1)) _ _ ks1 ps1 k) as [h1|] eqn:E1; [|discriminate]. destruct (read_head (table_doms s2 (T s2)) _ _ ks2 ps2 k) as [h2|] eqn:E2; [|discriminate].
    destruct (read_body C1 _ h1 _ body) as [(Z1, P1)|]; [|discriminate]. destruct (read_body C2 _ h2 _ body) as [(Z2, P2)|]; [|discriminate].
    destruct (read_entries C1 _ _ _ Z1 _ _ l) as [((a1, b1), c1)|] eqn:R1; [|discriminate].
    destruct (read_entries C2 _ _ _ Z2 _ _ l) as [((a2, b2), c2)|] eqn:R2; [|discriminate].
    cbn in H1, H2. injection H1 as <- <- <-. injection H2 as <- <- <-. cbn [fold_left later_kinds filter].
    apply (head_like _ _ _ _ _ _ _ _ _ (eq_refl : f_arrays (file_of C1 (table_arrays s1 (T s1)) Y1) = _) (eq_refl : f_arrays (file_of C2 (table_arrays s2 (T s2)) Y2) = _) L E1) in E2. destruct E2 as [L' N'].
    destruct (IH _ _ _ _ _ _ _ _ _ _ _ _ L' R1 R2) as [Q1 Q2]. split; [exact Q1|]. rewrite Q2, N'. cbn [length]. lia.
Qed.
End Two.

Lemma read_like : forall g1 g2 t R1 R2, read_text g1 t = Some R1 -> read_text g2 t = Some R2 ->
  Forall2 like_kind (system_kinds R1) (system_kinds R2) /\ length (system_kinds R1) = kind_count t.
Proof.
  intros g1 g2 t R1 R2 H1 H2. unfold read_text in H1, H2.
  destruct (read_consts g1 (pt_consts t)) as [C1|]; [|discriminate]. destruct (read_consts g2 (pt_consts t)) as [C2|]; [|discriminate].
  destruct (pt_vbls t) as [|d l]; [discriminate|]. 
  destruct (read_vdecls C1 [] (d :: l)) as [s1|] eqn:V1; [|discriminate]. destruct (read_vdecls C2 [] (d :: l)) as [s2|] eqn:V2; [|discriminate].
  destruct (vdecls_kept _ _ _ _ V1) as (N1 & O1 & P1). destruct (vdecls_kept _ _ _ _ V2) as (N2 & O2 & P2).
  fold (T s1) in H1. fold (T s2) in H2.
  destruct (read_entries C1 _ _ _ new_sys [] [] (pt_entries t)) as [((a1, b1), c1)|] eqn:E1; [|discriminate].
  destruct (read_entries C2 _ _ _ new_sys [] [] (pt_entries t)) as [((a2, b2), c2)|] eqn:E2; [|discriminate].
  injection H1 as <-. injection H2 as <-. unfold system_kinds. cbn [r_items].
  refine (entries_like s1 s2 _ _ (P1 (Forall_nil _)) (P2 (Forall_nil _)) C1 C2 _ _ _ [] [] _ _ _ _ _ _ _ _ (Forall2_nil _) E1 E2); congruence.
Qed.

(** ** The comparison *)
Lemma forall2_nth : forall A B (R : A -> B -> Prop) d d' l l', Forall2 R l l' -> length l = length l' /\ forall i, i < length l -> R (nth i l d) (nth i l' d').
Proof.
  intros A B R d d' l l' H. induction H as [|a b l l' H F [IH1 IH2]]; cbn; [split; [reflexivity|lia]|].
  split; [congruence|]. intros [|i] Hi; [exact H|apply IH2; lia].
Qed.
Lemma nth_forall2 : forall A B (R : A -> B -> Prop) d d' l l', length l = length l' -> (forall i, i < length l -> R (nth i l d) (nth i l' d')) -> Forall2 R l l'.
Proof.
  induction l as [|a l IH]; intros [|b l'] E H; try discriminate; constructor.
  - apply (H 0). cbn; lia.
  - apply IH; [cbn in E; lia|]. intros i Hi. apply (H (S i)). cbn; lia.
Qed.
Lemma like_doms_eq : forall a b, like_kind a b -> map a_dom (accs a) = map a_dom (accs b) -> a = b.
Proof.
  intros [A SA] [B SB] [L ES] D. cbn in *. subst SB. f_equal. induction L as [|x y A B [T1 T2] L IH]; [reflexivity|]. cbn in D. injection D as D1 D2.
  f_equal; [|exact (IH D2)]. destruct x, y. cbn in *. congruence.
Qed.
Lemma equiv_refl : forall a, dom_equiv_ck a a = true.
Proof.
  intros a. unfold dom_equiv_ck. rewrite !Nat.eqb_refl. cbn [andb].
  assert (Q : forall f l, forallb (fun i : nat => f i =? f i) l = true) by (intros f l; apply forallb_forall; intros; apply Nat.eqb_refl).
  rewrite !Q. reflexivity.
Qed.
Lemma equiv_doms : forall a b, dom_equiv_ck a b = true -> map a_dom (accs a) = map a_dom (accs b).
Proof.
  intros a b H. unfold dom_equiv_ck in H. rewrite !andb_true_iff in H. destruct H as ((((_ & N) & D) & _) & _).
  apply Nat.eqb_eq in N. unfold nr in N, D. rewrite forallb_forall in D.
  apply nth_ext with (d := a_dom acc0) (d' := a_dom acc0); rewrite !map_length; [exact N|]. intros i Hi. rewrite !map_nth.
  specialize (D i). rewrite in_seq in D. apply Nat.eqb_eq. apply D. lia.
Qed.
Lemma equiv_like : forall a b, like_kind a b -> dom_equiv_ck a b = true <-> map a_dom (accs a) = map a_dom (accs b).
Proof.
  intros a b L. split; [apply equiv_doms|]. intros D. rewrite (like_doms_eq a b L D). apply equiv_refl.
Qed.
Lemma same_ck : forall ks ks', Forall2 like_kind ks ks' -> same_doms_ck ks ks' = true <-> same_domains ks ks'.
Proof.
  intros ks ks' L. destruct (forall2_nth _ _ _ pc0 pc0 _ _ L) as [EL LN]. unfold same_doms_ck, same_domains. rewrite forallb_forall. split; intros H.
  - apply (nth_forall2 _ _ _ pc0 pc0); [exact EL|]. intros i Hi. apply (equiv_like _ _ (LN i Hi)). apply H. apply in_seq. lia.
  - intros i Hi. apply in_seq in Hi. apply (equiv_like _ _ (LN i ltac:(lia))). apply (forall2_nth _ _ _ pc0 pc0 _ _ H). lia.
Qed.
Lemma same_kinds : forall ks ks', Forall2 like_kind ks ks' -> same_domains ks ks' -> ks = ks'.
Proof.
  intros ks ks' L H. induction L as [|a b ks ks' L F IH]; [reflexivity|]. inversion H; subst. f_equal; auto. apply like_doms_eq; auto.
Qed.
