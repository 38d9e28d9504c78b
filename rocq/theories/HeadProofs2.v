(** Constants and variables. *)
From Coq Require Import String List Arith Bool ZArith Lia.
From Verif Require Import FinLib Radix ParseModel AccessModel AccessProofs FmlaModel FmlaSpec ActModel NetModel IntModel IntSpec IntProofs ExprModel ExprSpec ExprProofs ExprProps
  CmdModel CmdProofs4 DeclModel DeclSpec HeadModel HeadSpec HeadProofs.
Import ListNotations.
Local Open Scope list_scope.
Local Open Scope nat_scope.

(** ** Integers *)
Lemma eval_int_spec : forall ds F P G b e k, inhabited ds -> declares ds F P G -> fresh_indices (map fst b) e -> eval_int ds F P b e = Some k ->
  forall s, ok ds s -> value_of G b e s = Some k.
Proof.
  intros ds F P G b e k INH D FR E s S. unfold eval_int in E. destruct (eval_i ds F P b e) as [(z, m)|] eqn:EV; [|discriminate].
  destruct (C68_integer ds F P G b e z m INH D FR EV) as (f & (TB & R) & V & _). rewrite (V s S), <- (R s S).
  pose proof (entry_lt ds z s TB S) as L. unfold entry. destruct (i_map z) as [|k' [|]]; try discriminate. injection E as ->. cbn [length] in L.
  destruct (index_of_state _ _); [auto|lia].
Qed.

(** ** Constants *)
Definition const_ok (C : list (string * list Z)) : Prop := forall x l, assoc x C = Some l -> l <> [].
Lemma const_declares : forall C, const_ok C -> declares [] (const_file C) None (constants_only C).
Proof. intros C H. constructor; cbn; auto; try (constructor; fail); try discriminate; try contradiction. Qed.
Lemma constant_value_spec : forall C e k, const_ok C -> fresh_indices [] e -> constant_value C e = Some k -> worth C e k.
Proof.
  intros C e k H FR E. unfold worth. apply (eval_int_spec [] (const_file C) None (constants_only C) [] e k); auto; [constructor|apply const_declares; auto|constructor].
Qed.
Lemma assoc_app : forall A x (l l' : list (string * A)), assoc x (l ++ l') = match assoc x l with Some v => Some v | None => assoc x l' end.
Proof. intros A x l l'. induction l as [|(y, a) l IH]; cbn; auto. destruct (String.eqb x y); auto. Qed.
Lemma put_keeps : forall C x val y v, assoc y C = Some v -> assoc y (put_constant C x val) = Some v.
Proof. intros C x val y v H. unfold put_constant. destruct (assoc x C); auto. rewrite assoc_app, H. auto. Qed.
Lemma put_has : forall C x val, assoc x (put_constant C x val) = Some (match assoc x C with Some v => v | None => val end).
Proof.
  intros C x val. unfold put_constant. destruct (assoc x C) as [v|] eqn:E; [auto|]. rewrite assoc_app, E. cbn. rewrite String.eqb_refl. auto.
Qed.
Lemma put_other : forall C x val y, y <> x -> assoc y (put_constant C x val) = assoc y C.
Proof.
  intros C x val y H. unfold put_constant. destruct (assoc x C); auto. rewrite assoc_app. destruct (assoc y C); auto. cbn. apply String.eqb_neq in H. rewrite H. auto.
Qed.

(** More constants: what has a value keeps it. *)
Definition more (C C' : list (string * list Z)) : Prop := forall x v, assoc x C = Some v -> assoc x C' = Some v.
Lemma all_defined_mono : forall A (f g : A -> option bool) l r, (forall a v, f a = Some v -> g a = Some v) -> all_defined (map f l) = Some r -> all_defined (map g l) = Some r.
Proof.
  intros A f g. induction l as [|a l IH]; intros r H E; cbn in *; auto. destruct (f a) as [v|] eqn:FA; [|discriminate]. rewrite (H _ _ FA).
  destruct (all_defined (map f l)) as [r'|]; [|discriminate]. rewrite (IH r'); auto.
Qed.
Lemma worth_mono : forall C C', more C C' -> forall e b s,
  (forall v, truth (constants_only C) b e s = Some v -> truth (constants_only C') b e s = Some v) /\
  (forall v, value_of (constants_only C) b e s = Some v -> value_of (constants_only C') b e s = Some v).
Proof.
  intros C C' M. induction e as [x|n|a IHa|a IHa|a IHa|a IHa c IHc|a IHa c IHc|a IHa c IHc|a IHa c IHc|a IHa c IHc|r a IHa c IHc|q x n IHn body IHb|a IHa|op a IHa c IHc|c IHc a IHa d IHd|x i IHi];
    intros b s; cbn [truth value_of]; fold (value_of (constants_only C)); fold (truth (constants_only C)); fold (value_of (constants_only C')); fold (truth (constants_only C')); (split; intros v H); try discriminate H; auto.
  - unfold int_named in *. cbn in *. destruct (assoc x b); auto. destruct (assoc x C) as [[|w l]|] eqn:E; try discriminate. rewrite (M _ _ E). auto.
  - apply IHa. auto.
  - apply IHa. auto.
  - apply IHa. auto.
  - destruct (truth _ b a s) as [w|] eqn:E; [|discriminate]. apply IHa in E. rewrite E. auto.
  - destruct (truth _ b a s) as [w|] eqn:E; [|discriminate]. apply IHa in E. rewrite E. destruct w; auto. apply IHc. auto.
  - destruct (truth _ b a s) as [w|] eqn:E; [|discriminate]. apply IHa in E. rewrite E. destruct w; auto. apply IHc. auto.
  - destruct (truth _ b a s) as [w|] eqn:E; [|discriminate]. apply IHa in E. rewrite E. destruct w; auto. apply IHc. auto.
  - destruct (truth _ b a s) as [w|] eqn:E; [|discriminate]. apply IHa in E. rewrite E. destruct (truth _ b c s) as [u|] eqn:E2; [|discriminate]. apply IHc in E2. rewrite E2. auto.
  - destruct (truth _ b a s) as [w|] eqn:E; [|discriminate]. apply IHa in E. rewrite E. destruct (truth _ b c s) as [u|] eqn:E2; [|discriminate]. apply IHc in E2. rewrite E2. auto.
  - destruct (value_of _ b a s) as [w|] eqn:E; [|discriminate]. apply IHa in E. rewrite E. destruct (value_of _ b c s) as [u|] eqn:E2; [|discriminate]. apply IHc in E2. rewrite E2. auto.
  - destruct (value_of _ b n s) as [w|] eqn:E; [|discriminate]. apply IHn in E. rewrite E. destruct (Z_lt_dec 0 w); [|discriminate].
    destruct (all_defined _) as [r|] eqn:A in H; [|discriminate]. rewrite (all_defined_mono _ _ _ _ _ (fun i => proj1 (IHb ((x, Z.of_nat i) :: b) s)) A). auto.
  - destruct (value_of _ b a s) as [w|] eqn:E; [|discriminate]. apply IHa in E. rewrite E. auto.
  - destruct (value_of _ b a s) as [w|] eqn:E; [|discriminate]. apply IHa in E. rewrite E. destruct (value_of _ b c s) as [u|] eqn:E2; [|discriminate]. apply IHc in E2. rewrite E2. auto.
  - destruct (truth _ b c s) as [w|] eqn:E; [|discriminate]. apply IHc in E. rewrite E. destruct w; [apply IHa|apply IHd]; auto.
  - destruct (value_of _ b i s) as [w|] eqn:E; [|discriminate]. apply IHi in E. rewrite E. cbn in *. destruct (assoc x C) as [l|] eqn:EC; [|discriminate]. rewrite (M _ _ EC). auto.
Qed.
Lemma worth_more : forall C C' e v, more C C' -> worth C e v -> worth C' e v.
Proof. intros C C' e v M. unfold worth. apply (worth_mono C C' M e [] []). Qed.

Lemma const_step : forall C c C', const_ok C -> plain_const c -> add_constant C c = Some C' ->
  const_ok C' /\ more C C' /\ exists vals, const_says C c vals /\ C' = put_constant C (const_name c) vals.
Proof.
  intros C c C' H PL E.
  assert (X : exists vals, const_says C c vals /\ vals <> [] /\ C' = put_constant C (const_name c) vals).
  { destruct c as [x e|x es]; cbn in *.
    - destruct (constant_value C e) as [v|] eqn:EV; [|discriminate]. injection E as <-. exists [v]. split; [|split; [discriminate|auto]]. exists v. split; auto. apply constant_value_spec; auto.
    - destruct PL as (NE & FR). destruct (all_parsed _) as [vs|] eqn:EV; [|discriminate]. injection E as <-. exists vs. apply all_parsed_spec in EV.
      assert (F2 : Forall2 (worth C) es vs).
      { clear NE. revert vs EV. induction FR as [|e es FE FR IH]; intros [|v vs] EV; try discriminate; constructor; cbn in EV; injection EV as E1 E2; auto. apply constant_value_spec; auto. }
      split; auto. split; auto. intros ->. inversion F2; subst. contradiction. }
  destruct X as (vals & A & NE & ->). split; [|split; [intros y v; apply put_keeps|eauto]].
  intros y l L. destruct (string_dec y (const_name c)) as [->|NY].
  - rewrite put_has in L. injection L as <-. destruct (assoc (const_name c) C) as [v|] eqn:EC; auto. apply (H _ _ EC).
  - rewrite put_other in L by auto. apply (H _ _ L).
Qed.
Lemma consts_spec : forall l C C', const_ok C -> Forall plain_const l -> read_consts C l = Some C' ->
  const_ok C' /\ more C C' /\
  (forall x, assoc x C' <> None <-> assoc x C <> None \/ In x (map const_name l)) /\
  forall pre c post, l = pre ++ c :: post -> assoc (const_name c) C = None -> ~ In (const_name c) (map const_name pre) ->
    exists vals, const_says C' c vals /\ assoc (const_name c) C' = Some vals.
Proof.
  induction l as [|c l IH]; intros C C' H PL E; cbn in E.
  - injection E as <-. split; auto. split; [intros x v; auto|]. split; [cbn; tauto|]. intros [|? ?] c' post X; discriminate X.
  - destruct (add_constant C c) as [C1|] eqn:E1; [|discriminate]. inversion PL; subst. destruct (const_step _ _ _ H H2 E1) as (O1 & M1 & vals & SA & ->).
    destruct (IH _ _ O1 H3 E) as (O2 & M2 & K & W). split; auto. split; [intros x v X; auto|]. split.
    + intros x. rewrite K. cbn [map In]. destruct (string_dec x (const_name c)) as [->|NX].
      * rewrite put_has. split; [auto|]. intros _. left. discriminate.
      * rewrite put_other by auto. split; [tauto|]. intros [A|[A|A]]; [auto|congruence|auto].
    + intros [|p pre] c' post X NC NP; cbn in X; injection X as <- X.
      * exists vals. split; [|apply M2; rewrite put_has, NC; auto]. assert (MM : more C C') by (intros x v Y; auto).
        destruct c as [x e|x es]; cbn in *.
        -- destruct SA as (v & A & B). exists v. split; auto. apply (worth_more C); auto.
        -- clear - SA MM. induction SA; constructor; auto. apply (worth_more C); auto.
      * apply (W pre c' post X).
        -- rewrite put_other; auto. intros Q. apply NP. left. auto.
        -- intros Q. apply NP. right. auto.
Qed.

(** ** Variables *)
Lemma vdecls_spec : forall C l symms symms', const_ok C -> Forall plain_vdecl l -> read_vdecls C symms l = Some symms' ->
  exists new, symms' = symms ++ new /\ Forall2 (array_says C) l new.
Proof.
  intros C. induction l as [|d l IH]; intros symms symms' H PL E; cbn in E.
  - injection E as <-. exists []. split; [symmetry; apply app_nil_r|constructor].
  - destruct (add_variables C symms d) as [s1|] eqn:E1; [|discriminate]. inversion PL; subst. destruct H2 as (F1 & F2).
    unfold add_variables, eval_gtz in E1. fold (constant_value C (vd_size d)) in E1. fold (constant_value C (vd_dom d)) in E1.
    destruct (constant_value C (vd_size d)) as [k|] eqn:K; [|discriminate]. destruct (0 <? k)%Z eqn:PK; [|discriminate].
    destruct (constant_value C (vd_dom d)) as [q|] eqn:Q; [|discriminate]. destruct (0 <? q)%Z eqn:PQ; [|discriminate]. injection E1 as <-.
    apply Z.ltb_lt in PK. apply Z.ltb_lt in PQ.
    destruct (IH _ _ H H3 E) as (new & -> & F). exists (mkVsymm (vd_role d) (vd_name d) (Z.to_nat k) (Z.to_nat q) :: new). rewrite <- app_assoc. split; auto.
    constructor; auto. repeat split; cbn; try lia; rewrite Z2Nat.id by lia; apply constant_value_spec; auto.
Qed.

Lemma place_known : forall symms a d j, nth_error symms a = Some d -> j < vs_size d ->
  nth_error (cells (map vs_size symms)) (place (map vs_size symms) a j) = Some (a, j).
Proof. intros symms a d j E L. apply (place_spec _ _ (vs_size d)); auto. rewrite nth_error_map, E. auto. Qed.

Lemma assoc_fold : forall (l : list (string * list nat)) acc x,
  assoc x (fold_left (fun acc p => set_key (fst p) (snd p) acc) l acc) = match assoc x (rev l) with Some v => Some v | None => assoc x acc end.
Proof.
  induction l as [|(y, v) l IH]; intros acc x; cbn [fold_left rev fst snd]; auto. rewrite IH, assoc_app. destruct (assoc x (rev l)); auto.
  unfold set_key. cbn. destruct (String.eqb x y); auto.
Qed.
Lemma rev_last : forall A (l : list (string * A)) x v, assoc x (rev l) = Some v ->
  exists a, nth_error l a = Some (x, v) /\ forall b w, nth_error l b = Some (x, w) -> b <= a.
Proof.
  intros A l x v. induction l as [|(y, u) l IH]; cbn; intros H; [discriminate|]. rewrite assoc_app in H. destruct (assoc x (rev l)) as [w|] eqn:E.
  - injection H as ->. destruct (IH eq_refl) as (a & X & M). exists (S a). split; auto. intros [|b] w' Y; [lia|]. apply M in Y. lia.
  - cbn in H. destruct (String.eqb_spec x y); [|discriminate]. injection H as ->. subst y. exists 0. split; auto. intros [|b] w Y; [lia|]. cbn in Y. exfalso.
    assert (I : In (x, w) (rev l)) by (rewrite <- in_rev; apply (nth_error_In _ _ Y)). apply (in_map fst) in I. apply assoc_none in E. auto.
Qed.
Lemma nth_error_combine : forall A B (l : list A) (l' : list B) i a b, nth_error (combine l l') i = Some (a, b) <-> nth_error l i = Some a /\ nth_error l' i = Some b.
Proof.
  induction l as [|x l IH]; intros l' i a b; cbn; [destruct i; split; [discriminate|intros (X & _); discriminate X|discriminate|intros (X & _); discriminate X]|].
  destruct l' as [|y l']; [destruct i; cbn; split; try discriminate; intros (_ & X); discriminate X|]. destruct i as [|i]; cbn.
  - split; [intros E; injection E as -> ->; auto|intros (E1 & E2); congruence].
  - apply IH.
Qed.

Lemma numbered_spec : forall symms, let T := commit_variables (map vs_size symms) in
  numbered symms (table_doms symms T) (table_roles symms T) (table_arrays symms T) (place (map vs_size symms)).
Proof.
  intros symms T. set (sizes := map vs_size symms) in *. destruct (table_spec sizes) as (V & SH & PL). fold T in V, SH, PL.
  assert (IDX : forall a d, nth_error symms a = Some d -> nth_error sizes a = Some (vs_size d)) by (intros a d E; unfold sizes; rewrite nth_error_map, E; auto).
  assert (MEM : forall a j, has_member symms a j -> nth_error (cells sizes) (place sizes a j) = Some (a, j)) by (intros a j (d & E & L); apply (place_known _ _ d); auto).
  constructor.
  - intros a d j E L. unfold table_doms, table_roles. rewrite V, !nth_error_map. unfold sizes. rewrite (place_known _ _ _ _ E L). cbn [option_map fst]. split; f_equal.
    + rewrite (nth_error_nth (map vs_dom symms) a 0 (x := vs_dom d)); auto. rewrite nth_error_map, E. auto.
    + rewrite (nth_error_nth (map vs_role symms) a Direct (x := vs_role d)); auto. rewrite nth_error_map, E. auto.
  - intros v L. unfold table_doms in L. rewrite map_length, V in L. destruct (nth_error (cells sizes) v) as [(a, j)|] eqn:E; [|apply nth_error_None in E; lia].
    exists a, j. split; [|apply PL in E; exact E]. pose proof (nth_error_In _ _ E) as I. apply in_cells in I. destruct I as (z & Z & LT).
    unfold sizes in Z. rewrite nth_error_map in Z. destruct (nth_error symms a) as [d|] eqn:D; [|discriminate]. injection Z as <-. exists d. auto.
  - intros a j a' j' M M' E. apply MEM in M, M'. rewrite E in M. rewrite M in M'. injection M'. auto.
  - intros a j j' (d & E & L) LT. apply (place_order _ _ (vs_size d)); auto.
  - unfold table_doms, table_roles. rewrite !map_length. auto.
  - intros x. unfold table_arrays. rewrite assoc_fold. cbn [assoc]. destruct (assoc x (rev _)) as [vs|] eqn:E.
    + apply rev_last in E. destruct E as (a & X & MX). apply nth_error_combine in X. destruct X as (X1 & X2). rewrite nth_error_map in X1.
      destruct (nth_error symms a) as [d|] eqn:D; [|discriminate]. injection X1 as X1. exists a, d. split; [|split; auto].
      * split; [eauto|]. intros b d' B N. destruct (nth_error (vt_membs T) b) as [w|] eqn:W.
        -- apply (MX b w). apply nth_error_combine. split; auto. rewrite nth_error_map, B. cbn. congruence.
        -- exfalso. apply IDX in B. unfold T in W. rewrite (membs_places _ _ _ B) in W. discriminate.
      * apply IDX in D. unfold T in X2. rewrite (membs_places _ _ _ D) in X2. congruence.
    + intros d I N. apply assoc_none in E. apply E. rewrite map_rev, <- in_rev. apply In_nth_error in I. destruct I as (a & D). pose proof D as D'. apply IDX in D'.
      apply in_map_iff. exists (x, map (place sizes a) (seq 0 (vs_size d))). split; auto. apply (nth_error_In _ a). apply nth_error_combine. split.
      * rewrite nth_error_map, D. cbn. congruence.
      * unfold T. rewrite (membs_places _ _ _ D'). auto.
Qed.
