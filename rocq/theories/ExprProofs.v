(** Evaluation of expressions gives their meaning. *)
From Coq Require Import String List Arith Bool ZArith Lia.
From Verif Require Import FinLib Radix FmlaModel FmlaSpec FmlaProofs FmlaProofs2 FmlaProofs3 FmlaProofs4 FmlaProps
  IntModel IntSpec IntProofs IntProps ExprModel ExprSpec.
Import ListNotations.
Local Open Scope list_scope.

(** ** Maps *)
Lemma assoc_set : forall A x y (a : A) l, assoc x (set_key y a l) = if String.eqb x y then Some a else assoc x l.
Proof. reflexivity. Qed.
Lemma assoc_erase : forall A x y (l : list (string * A)), assoc x (erase_key y l) = if String.eqb x y then None else assoc x l.
Proof.
  intros A x y l. unfold erase_key. induction l as [|(z, a) l IH]; cbn.
  - destruct (String.eqb x y); auto.
  - destruct (String.eqb_spec y z) as [E|NE]; cbn [negb].
    + subst z. rewrite IH. destruct (String.eqb x y); auto.
    + cbn [assoc]. rewrite IH. destruct (String.eqb_spec x z) as [E|]; auto. subst z. destruct (String.eqb_spec x y) as [E|]; auto. congruence.
Qed.
Lemma same_keys_assoc : forall A B (R : A -> B -> Prop) l l' x, same_keys R l l' ->
  match assoc x l, assoc x l' with Some a, Some b => R a b | None, None => True | _, _ => False end.
Proof.
  induction 1 as [|(y, a) (y', a') l l' (E & H1) _ IH]; cbn in *; auto. subst y'. destruct (String.eqb x y); auto.
Qed.

(** ** Quantifiers *)
Definition qstep (q : quant) (acc : bool * bool) (c : bool) : bool * bool :=
  let (p, o) := acc in
  match q with
  | QForall => (p && c, o)
  | QExists => (p || c, o)
  | QUnique => ((p && negb (c && o)) || (c && negb o), o || c)
  end.
Definition qinit (q : quant) : bool * bool := match q with QForall => (true, false) | _ => (false, false) end.
Lemma quantifies_fold : forall q l, quantifies q l = fst (fold_left (qstep q) l (qinit q)).
Proof.
  intros q l. destruct q; cbn [quantifies qinit].
  - assert (H : forall l p o, fold_left (qstep QForall) l (p, o) = (p && forallb id l, o)).
    { induction l0 as [|x l0 IH]; intros p o; cbn; [rewrite andb_true_r; auto|]. rewrite IH. unfold id at 2. rewrite andb_assoc. auto. }
    rewrite H. reflexivity.
  - assert (H : forall l p o, fold_left (qstep QExists) l (p, o) = (p || existsb id l, o)).
    { induction l0 as [|x l0 IH]; intros p o; cbn; [rewrite orb_false_r; auto|]. rewrite IH. unfold id at 2. rewrite orb_assoc. auto. }
    rewrite H. reflexivity.
  - assert (H : forall l k, fold_left (qstep QUnique) l (k =? 1, negb (k =? 0)) = (count_occ bool_dec l true + k =? 1, negb (count_occ bool_dec l true + k =? 0))).
    { induction l0 as [|x l0 IH]; intros k; [reflexivity|]. cbn [fold_left qstep].
      destruct x.
      - replace ((k =? 1) && negb (true && negb (k =? 0)) || true && negb (negb (k =? 0)), negb (k =? 0) || true) with (S k =? 1, negb (S k =? 0)).
        + rewrite IH. rewrite count_occ_cons_eq by auto. rewrite Nat.add_succ_r. reflexivity.
        + destruct k as [|[|k]]; reflexivity.
      - replace ((k =? 1) && negb (false && negb (k =? 0)) || false && negb (negb (k =? 0)), negb (k =? 0) || false) with (k =? 1, negb (k =? 0)).
        + rewrite IH. rewrite count_occ_cons_neq by discriminate. reflexivity.
        + destruct k as [|[|k]]; reflexivity. }
    specialize (H l 0). cbn [Nat.eqb negb] in H. rewrite H, Nat.add_0_r. reflexivity.
Qed.
Lemma all_defined_map : forall (f : nat -> bool) g l, (forall i, In i l -> g i = Some (f i)) -> all_defined (map g l) = Some (map f l).
Proof. induction l as [|x l IH]; intros H; cbn; auto. rewrite H by (cbn; auto). rewrite IH by (intros; apply H; cbn; auto). reflexivity. Qed.

Section Sound.
Variable ds : list nat.
Hypothesis INH : inhabited ds.
Notation ok := (FmlaSpec.ok ds).
Variable F : file.
Variable P : option pcuse.
Variable G : scope.
Hypothesis D : declares ds F P G.
Notation evalf := (eval_f ds F P).
Notation evali := (eval_i ds F P).
Notation now pf s := (FmlaModel.eval pf (join s s s)).

Lemma evalf_eq : forall m e, evalf m e =
  match e with
  | SName x => option_map (fun pf => (pf, m)) (lookup_pfmla F P x)
  | SBool a => evalf m a
  | SInt a => evalf m a
  | SNot a => match evalf m a with Some (pf, m1) => Some (not_PFmla pf, m1) | None => None end
  | SAnd a b =>
      match evalf m a with
      | None => None
      | Some (pf, m1) =>
          if negb (sat_ck ds pf) then Some (pf, m1)
          else match evalf m1 b with Some (pf_c, m2) => Some (and_PFmla pf pf_c, m2) | None => None end
      end
  | SOr a b =>
      match evalf m a with
      | None => None
      | Some (pf, m1) =>
          if tautology_ck ds pf then Some (pf, m1)
          else match evalf m1 b with Some (pf_c, m2) => Some (or_PFmla pf pf_c, m2) | None => None end
      end
  | SImp a b =>
      match evalf m a with
      | None => None
      | Some (pf, m1) =>
          if negb (sat_ck ds pf) then Some (Cst true, m1)
          else match evalf m1 b with Some (pf_c, m2) => Some (or_PFmla (not_PFmla pf) pf_c, m2) | None => None end
      end
  | SIff a b =>
      match evalf m a with
      | None => None
      | Some (pf, m1) => match evalf m1 b with Some (pf_c, m2) => Some (xnor_PFmla pf pf_c, m2) | None => None end
      end
  | SXor a b =>
      match evalf m a with
      | None => None
      | Some (pf, m1) => match evalf m1 b with Some (pf_c, m2) => Some (xor_PFmla pf pf_c, m2) | None => None end
      end
  | SCmp c a b =>
      match evali m a with
      | None => None
      | Some (x, m1) =>
          match evali m1 b with
          | None => None
          | Some (y, m2) => option_map (fun pf => (pf, m2)) (cmp_fmla ds c x y)
          end
      end
  | SQuant q x n body =>
      match evali m n with
      | None => None
      | Some (z, m1) =>
          match i_map z with
          | [k] =>
              if (0 <? k)%Z then
                quant_loop x q (fun m => evalf m body) (i_map (of_range (Z.to_nat k))) (quant_init q) m1
              else None
          | _ => None
          end
      end
  | SNat _ | SNeg _ | SBin _ _ _ | SIif _ _ _ | SAref _ _ => None
  end.
Proof. intros m e. destruct e; reflexivity. Qed.
Lemma evali_eq : forall m e, evali m e =
  match e with
  | SName x => option_map (fun v => (of_int v, m)) (lookup_int F P m x)
  | SNat n => Some (of_int (Z.of_nat n), m)
  | SInt a => evali m a
  | SNeg a => match evali m a with Some (x, m1) => Some (negate x, m1) | None => None end
  | SBin op a b =>
      match evali m a with
      | None => None
      | Some (x, m1) =>
          match evali m1 b with
          | None => None
          | Some (y, m2) => option_map (fun z => (z, m2)) (defeq_binop x y op)
          end
      end
  | SIif c a b =>
      match evalf m c with
      | None => None
      | Some (pf, m1) =>
          if tautology_ck ds pf then evali m1 a
          else if negb (sat_ck ds pf) then evali m1 b
          else None
      end
  | SAref x i =>
      match evali m i with
      | None => None
      | Some (z, m1) =>
          match i_map z with
          | [k] =>
              match assoc x (f_consts F) with
              | Some l => option_map (fun v => (of_int v, m1)) (nth_error l (umod_int k (length l)))
              | None => option_map (fun v => (of_vbl ds v, m1)) (lookup_vbl F P x k)
              end
          | _ => None
          end
      end
  | SBool _ | SNot _ | SAnd _ _ | SOr _ _ | SImp _ _ | SIff _ _ | SXor _ _ | SCmp _ _ _ | SQuant _ _ _ _ => None
  end.
Proof. intros m e. destruct e; reflexivity. Qed.

Definition static (pf : fmla) : Prop := forall a i p, ok a -> ok i -> ok p -> FmlaModel.eval pf (join a i p) = now pf p.
Lemma static_iff : forall pf, static pf <-> state_fmla ds pf.
Proof. intros pf. split; [apply state_of_eval|]. intros H a i p A I S. apply (state_eval ds pf); auto. Qed.
Definition is_truth (b : imap) (e : sexp) (pf : fmla) : Prop := static pf /\ forall s, ok s -> truth G b e s = Some (now pf s).
Definition is_value (b : imap) (e : sexp) (z : ipf) : Prop := table_ok ds z /\ forall s, ok s -> value_of G b e s = Some (entry z s).
Definition same_map (m b : imap) : Prop := forall x, assoc x m = assoc x b.

Lemma unsat_static : forall pf, sat_ck ds pf = false -> forall s, ok s -> now pf s = false.
Proof. intros pf H s S. apply (proj1 (unsat_iff ds INH pf) H); auto. Qed.
Lemma sat_static : forall pf, static pf -> (forall s, ok s -> now pf s = false) -> sat_ck ds pf = false.
Proof. intros pf ST H. apply (unsat_iff ds INH pf). intros a i p A I S. rewrite ST by auto. auto. Qed.
Lemma taut_static : forall pf, tautology_ck ds pf = true -> forall s, ok s -> now pf s = true.
Proof. intros pf H s S. apply (proj1 (tautology_iff ds INH pf) H); auto. Qed.
Lemma static_taut : forall pf, static pf -> (forall s, ok s -> now pf s = true) -> tautology_ck ds pf = true.
Proof. intros pf ST H. apply (tautology_iff ds INH pf). intros a i p A I S. rewrite ST by auto. auto. Qed.

Lemma single : forall z k, table_ok ds z -> i_map z = [k] -> forall s, ok s -> entry z s = k.
Proof.
  intros z k T E s S. pose proof (entry_lt ds z s T S) as L. unfold entry. rewrite E in *. cbn [length] in L.
  destruct (index_of_state _ _); [reflexivity|lia].
Qed.
Lemma no_vbls_single : forall z, table_ok ds z -> i_vbls z = [] -> exists k, i_map z = [k].
Proof.
  intros z T V. pose proof (t_size _ _ T) as L. rewrite (t_doms _ _ T), V in L. cbn in L. destruct (i_map z) as [|k [|? ?]]; try discriminate. eauto.
Qed.

Lemma named_int : forall m b x, same_map m b -> lookup_int F P m x = int_named G b x.
Proof.
  intros m b x M. unfold lookup_int, int_named. rewrite M. destruct (assoc x b) as [v|]; auto.
  rewrite (d_consts _ _ _ _ D). pose proof (d_lets _ _ _ _ D) as L. pose proof (d_let_once _ _ _ _ D x) as O.
  destruct P as [u|].
  - pose proof (same_keys_assoc _ _ _ _ _ x L) as K. destruct (assoc x (u_lets u)) as [l|], (assoc x (s_lets G)) as [v|]; try contradiction.
    + rewrite O by discriminate. exact K.
    + destruct (assoc x (g_consts G)) as [[|v l]|]; reflexivity.
  - rewrite L. cbn. destruct (assoc x (g_consts G)) as [[|v l]|]; reflexivity.
Qed.
Lemma named_pred : forall x, match lookup_pfmla F P x with
  | Some pf => static pf /\ forall s, ok s -> pred_named G x s = Some (now pf s)
  | None => forall s, pred_named G x s = None end.
Proof.
  intros x. unfold lookup_pfmla, pred_named. destruct (String.eqb x "true"); [split; [intros ? ? ?|]; reflexivity|].
  destruct (String.eqb x "false"); [split; [intros ? ? ?|]; reflexivity|].
  assert (IP : forall pf p, is_pred ds pf p -> static pf /\ forall s, ok s -> p s = now pf s).
  { intros pf p (ST & H). split; [apply static_iff; auto|]. intros s S. specialize (H s S). unfold holds, meaning in H. apply iff_eqb. tauto. }
  pose proof (same_keys_assoc _ _ _ _ _ x (d_preds _ _ _ _ D)) as K. pose proof (d_pred_once _ _ _ _ D x) as O. pose proof (d_ppreds _ _ _ _ D) as L.
  destruct (assoc x (f_preds F)) as [pf|].
  - destruct (assoc x (g_preds G)) as [p|] eqn:GP; [|contradiction]. apply IP in K. destruct K as (K1 & K2).
    destruct (assoc x (s_preds G)) as [p'|]; [exfalso; specialize (O ltac:(discriminate)); congruence|].
    split; auto. intros s S. rewrite K2 by auto. auto.
  - destruct (assoc x (g_preds G)) as [p|] eqn:GP; [contradiction|]. destruct P as [u|].
    + pose proof (same_keys_assoc _ _ _ _ _ x L) as K'. destruct (assoc x (u_preds u)) as [l|], (assoc x (s_preds G)) as [p|]; try contradiction.
      * destruct K' as (pf & -> & IPF). apply IP in IPF. destruct IPF as (K1 & K2). split; auto. intros s S. rewrite K2 by auto. auto.
      * auto.
    + rewrite L. auto.
Qed.

Lemma quant_step_eval : forall q acc pf e, (FmlaModel.eval (fst (quant_step q acc pf)) e, FmlaModel.eval (snd (quant_step q acc pf)) e) =
  qstep q (FmlaModel.eval (fst acc) e, FmlaModel.eval (snd acc) e) (FmlaModel.eval pf e).
Proof.
  intros q (p, o) pf e. destruct q; cbn [quant_step fst snd qstep].
  - rewrite eval_and. auto.
  - rewrite eval_or. auto.
  - rewrite eval_or, !eval_nimp, eval_and, eval_or. reflexivity.
Qed.

(** The loop: given what one evaluation of the body does. *)
Lemma loop_sound : forall x q ev b t, assoc x b = None ->
  (forall m v pf m', same_map m ((x, v) :: b) -> ev m = Some (pf, m') -> same_map m' ((x, v) :: b) /\ static pf /\ forall s, ok s -> t v s = Some (now pf s)) ->
  forall vs acc m pf m', (forall y, y <> x -> assoc y m = assoc y b) -> static (fst acc) -> static (snd acc) ->
  quant_loop x q ev vs acc m = Some (pf, m') ->
  same_map m' b /\ static pf /\
  exists ts : Z -> list nat -> bool, (forall v s, In v vs -> ok s -> t v s = Some (ts v s)) /\
    forall s, ok s -> now pf s = fst (fold_left (qstep q) (map (fun v => ts v s) vs) (now (fst acc) s, now (snd acc) s)).
Proof.
  intros x q ev b t NB EV vs. induction vs as [|v vs IH]; intros acc m pf m' M S1 S2 E; cbn in E.
  - injection E as <- <-. split; [|split; auto; exists (fun _ _ => true); split; [intros v s []|auto]].
    intros y. rewrite assoc_erase. destruct (String.eqb_spec y x) as [->|]; auto.
  - destruct (ev (set_key x v m)) as [(pf_c, m1)|] eqn:EE; [|discriminate]. destruct (EV (set_key x v m) v pf_c m1) as (M1 & SC & T); auto.
    { intros y. rewrite assoc_set. cbn [assoc]. destruct (String.eqb_spec y x); auto. }
    destruct (IH (quant_step q acc pf_c) m1 pf m') as (R1 & R2 & ts & R3 & R4); auto.
    + intros y N. rewrite M1. cbn [assoc]. destruct (String.eqb_spec y x); [contradiction|auto].
    + intros a i p A I S. pose proof (quant_step_eval q acc pf_c (join a i p)) as Q. pose proof (quant_step_eval q acc pf_c (join p p p)) as Q'.
      rewrite (S1 a i p), (S2 a i p), (SC a i p) in Q by auto. rewrite <- Q' in Q. congruence.
    + intros a i p A I S. pose proof (quant_step_eval q acc pf_c (join a i p)) as Q. pose proof (quant_step_eval q acc pf_c (join p p p)) as Q'.
      rewrite (S1 a i p), (S2 a i p), (SC a i p) in Q by auto. rewrite <- Q' in Q. congruence.
    + split; auto. split; auto. exists (fun w s => if Z.eq_dec w v then now pf_c s else ts w s). split.
      * intros w s [->|H] S; [destruct (Z.eq_dec w w); [auto|contradiction]|]. destruct (Z.eq_dec w v) as [->|]; auto.
      * intros s S. rewrite R4 by auto. rewrite quant_step_eval. cbn [map fold_left]. destruct (Z.eq_dec v v) as [_|]; [|contradiction].
        f_equal. f_equal. apply map_ext_in. intros w Hw. destruct (Z.eq_dec w v) as [->|]; auto.
        specialize (R3 v s Hw S). specialize (T s S). congruence.
Qed.

Lemma member_some : forall A (l : list A) k, l <> [] -> exists v, member l k = Some v /\ In v l.
Proof.
  intros A l k NE. unfold member. assert (L : 0 < length l) by (destruct l; [contradiction|cbn; lia]).
  assert (B : Z.to_nat (k mod Z.of_nat (length l)) < length l).
  { pose proof (Z.mod_pos_bound k (Z.of_nat (length l)) ltac:(lia)). lia. }
  destruct (nth_error l (Z.to_nat (k mod Z.of_nat (length l)))) as [v|] eqn:E; [|apply nth_error_None in E; lia].
  exists v. split; auto. eapply nth_error_In; eauto.
Qed.

Ltac dm H := match type of H with
  | context [match ?x with _ => _ end] => let E := fresh "E" in destruct x eqn:E; try discriminate H
  end.

Lemma sound : forall e m b used, same_map m b -> (forall x, assoc x b <> None -> In x used) -> fresh_indices used e ->
  (forall pf m', evalf m e = Some (pf, m') -> same_map m' b /\ is_truth b e pf) /\
  (forall z m', evali m e = Some (z, m') -> same_map m' b /\ is_value b e z).
Proof.
  assert (BIN : forall A B (x y : A) (u v : B), Some (x, u) = Some (y, v) -> x = y /\ u = v) by (intros; split; congruence).
  induction e as [x|n|a IHa|a IHa|a IHa|a IHa c IHc|a IHa c IHc|a IHa c IHc|a IHa c IHc|a IHa c IHc|r a IHa c IHc|q x n IHn body IHb|a IHa|op a IHa c IHc|c IHc a IHa d IHd|x i IHi];
    intros m b used M U FR; (split; [intros pf m' E|intros z m' E]); first [rewrite evalf_eq in E | rewrite evali_eq in E]; cbv beta iota in E; try discriminate E; cbn [fresh_indices] in FR.
  - (* name *) pose proof (named_pred x) as N. destruct (lookup_pfmla F P x) as [pf'|]; [|discriminate]. cbn in E. injection E as <- <-. split; auto.
  - rewrite (named_int m b x M) in E. destruct (int_named G b x) as [v|] eqn:N; [|discriminate]. cbn in E. injection E as <- <-. split; auto.
    destruct (of_int_table ds v) as (T & H). split; auto; intros s S; cbn [value_of]; rewrite H; auto.
  - injection E as <- <-. split; auto. destruct (of_int_table ds (Z.of_nat n)) as (T & H). split; auto; intros s S; cbn [value_of]; rewrite H; auto.
  - destruct (IHa m b used M U FR) as (H & _). apply H in E. exact E.
  - destruct (IHa m b used M U FR) as (H & _). apply H in E. exact E.
  - destruct (IHa m b used M U FR) as (_ & H). apply H in E. exact E.
  - (* not *) destruct (evalf m a) as [(p, m1)|] eqn:EA; [|discriminate]. injection E as <- <-. destruct (IHa m b used M U FR) as (H & _).
    destruct (H _ _ EA) as (M1 & (ST & T)). split; auto. split.
    + intros x i s X I S. rewrite !eval_not, ST by auto. auto.
    + intros s S. cbn [truth]. rewrite T by auto. rewrite eval_not. auto.
  - (* and *) destruct FR as (FA & FC). destruct (evalf m a) as [(p, m1)|] eqn:EA; [|discriminate]. destruct (IHa m b used M U FA) as (H & _).
    destruct (H _ _ EA) as (M1 & (ST & T)). destruct (sat_ck ds p) eqn:SAT; cbn [negb] in E.
    + destruct (evalf m1 c) as [(p2, m2)|] eqn:EC; [|discriminate]. injection E as <- <-. destruct (IHc m1 b used M1 U FC) as (H2 & _).
      destruct (H2 _ _ EC) as (M2 & (ST2 & T2)). split; auto. split.
      * intros x i s X I S. rewrite !eval_and, ST, ST2 by auto. auto.
      * intros s S. cbn [truth]. rewrite T, eval_and by auto. destruct (now p s); cbn [andb orb negb]; auto.
    + injection E as <- <-. split; auto. split; auto. intros s S. cbn [truth]. rewrite T, (unsat_static p SAT s S) by auto. auto.
  - (* or *) destruct FR as (FA & FC). destruct (evalf m a) as [(p, m1)|] eqn:EA; [|discriminate]. destruct (IHa m b used M U FA) as (H & _).
    destruct (H _ _ EA) as (M1 & (ST & T)). destruct (tautology_ck ds p) eqn:TT; cbn [negb] in E.
    + injection E as <- <-. split; auto. split; auto. intros s S. cbn [truth]. rewrite T, (taut_static p TT s S) by auto. auto.
    + destruct (evalf m1 c) as [(p2, m2)|] eqn:EC; [|discriminate]. injection E as <- <-. destruct (IHc m1 b used M1 U FC) as (H2 & _).
      destruct (H2 _ _ EC) as (M2 & (ST2 & T2)). split; auto. split.
      * intros x i s X I S. rewrite !eval_or, ST, ST2 by auto. auto.
      * intros s S. cbn [truth]. rewrite T, eval_or by auto. destruct (now p s); cbn [andb orb negb]; auto.
  - (* implies *) destruct FR as (FA & FC). destruct (evalf m a) as [(p, m1)|] eqn:EA; [|discriminate]. destruct (IHa m b used M U FA) as (H & _).
    destruct (H _ _ EA) as (M1 & (ST & T)). destruct (sat_ck ds p) eqn:SAT; cbn [negb] in E.
    + destruct (evalf m1 c) as [(p2, m2)|] eqn:EC; [|discriminate]. injection E as <- <-. destruct (IHc m1 b used M1 U FC) as (H2 & _).
      destruct (H2 _ _ EC) as (M2 & (ST2 & T2)). split; auto. split.
      * intros x i s X I S. rewrite !eval_or, !eval_not, ST, ST2 by auto. auto.
      * intros s S. cbn [truth]. rewrite T, eval_or, eval_not by auto. destruct (now p s); cbn [andb orb negb]; auto.
    + injection E as <- <-. split; auto. split; [intros ? ? ?; reflexivity|]. intros s S. cbn [truth]. rewrite T, (unsat_static p SAT s S) by auto. auto.
  - (* iff *) destruct FR as (FA & FC). destruct (evalf m a) as [(p, m1)|] eqn:EA; [|discriminate]. destruct (IHa m b used M U FA) as (H & _).
    destruct (H _ _ EA) as (M1 & (ST & T)). destruct (evalf m1 c) as [(p2, m2)|] eqn:EC; [|discriminate]. injection E as <- <-.
    destruct (IHc m1 b used M1 U FC) as (H2 & _). destruct (H2 _ _ EC) as (M2 & (ST2 & T2)). split; auto. split.
    + intros x i s X I S. rewrite !eval_xnor, ST, ST2 by auto. auto.
    + intros s S. cbn [truth]. rewrite T, T2, eval_xnor by auto. auto.
  - (* xor *) destruct FR as (FA & FC). destruct (evalf m a) as [(p, m1)|] eqn:EA; [|discriminate]. destruct (IHa m b used M U FA) as (H & _).
    destruct (H _ _ EA) as (M1 & (ST & T)). destruct (evalf m1 c) as [(p2, m2)|] eqn:EC; [|discriminate]. injection E as <- <-.
    destruct (IHc m1 b used M1 U FC) as (H2 & _). destruct (H2 _ _ EC) as (M2 & (ST2 & T2)). split; auto. split.
    + intros x i s X I S. rewrite !eval_xor, ST, ST2 by auto. auto.
    + intros s S. cbn [truth]. rewrite T, T2, eval_xor by auto. destruct (now p s), (now p2 s); auto.
  - (* comparison *) destruct FR as (FA & FC). destruct (evali m a) as [(y, m1)|] eqn:EA; [|discriminate]. destruct (IHa m b used M U FA) as (_ & H).
    destruct (H _ _ EA) as (M1 & (TB & T)). destruct (evali m1 c) as [(y2, m2)|] eqn:EC; [|discriminate].
    destruct (IHc m1 b used M1 U FC) as (_ & H2). destruct (H2 _ _ EC) as (M2 & (TB2 & T2)).
    destruct (cmp_fmla ds r y y2) as [p|] eqn:CF; [|discriminate]. cbn in E. injection E as <- <-. split; auto.
    assert (CM : exists l e g, cmp ds y y2 l e g = Some p /\ forall u w, compares r u w = true <-> (l = true /\ (u < w)%Z) \/ (e = true /\ u = w) \/ (g = true /\ (w < u)%Z)).
    { destruct r; cbn [cmp_fmla] in CF; eexists _, _, _; (split; [exact CF|]); intros u w; cbn [compares];
        [destruct (Z_lt_dec u w)|destruct (Z_le_dec u w)|destruct (Z.eq_dec u w)|destruct (Z.eq_dec u w)|destruct (Z_le_dec w u)|destruct (Z_lt_dec w u)]; intuition (try lia; try discriminate). }
    destruct CM as (l & e & g & C1 & C2). destruct (cmp_spec ds INH y y2 l e g TB TB2) as (p' & C1' & C3). rewrite C1 in C1'. injection C1' as <-.
    split.
    + intros x i s X I S. apply iff_eqb. fold (meaning p x i s) (meaning p s s s). rewrite (C3 x i s X I S), (C3 s s s S S S). tauto.
    + intros s S. cbn [truth]. rewrite T, T2 by auto. f_equal. apply iff_eqb. rewrite C2. symmetry. exact (C3 s s s S S S).
  - (* quantifier *) destruct FR as (NI & FN & FB). destruct (evali m n) as [(z, m1)|] eqn:EN; [|discriminate]. destruct (IHn m b used M U FN) as (_ & H).
    destruct (H _ _ EN) as (M1 & (TB & T)). destruct (i_map z) as [|k [|? ?]] eqn:IM; try discriminate.
    destruct (Z.ltb_spec 0 k) as [K|K]; [|discriminate].
    assert (NB : assoc x b = None) by (destruct (assoc x b) eqn:Q; auto; exfalso; apply NI, U; rewrite Q; discriminate).
    destruct (loop_sound x q (fun m => evalf m body) b (fun v s => truth G ((x, v) :: b) body s) NB) with (vs := i_map (of_range (Z.to_nat k))) (acc := quant_init q) (m := m1) (pf := pf) (m' := m') as (R1 & R2 & ts & R3 & R4); auto.
    + intros m0 v pf0 m0' M0 E0. destruct (IHb m0 ((x, v) :: b) (x :: used) M0) as (HB & _); auto.
      * intros y. cbn [assoc]. destruct (String.eqb_spec y x) as [->|]; [cbn; auto|]. intros Y. right. auto.
      * destruct (HB _ _ E0) as (B1 & (B2 & B3)). auto.
    + destruct q; intros ? ? ?; reflexivity.
    + destruct q; intros ? ? ?; reflexivity.
    + split; auto. split; auto. intros s S. cbn [truth]. rewrite T by auto. rewrite (single z k TB IM s S). destruct (Z_lt_dec 0 k) as [_|]; [|lia].
      rewrite (all_defined_map (fun i => ts (Z.of_nat i) s)).
      * cbn [option_map]. f_equal. rewrite quantifies_fold, R4 by auto. cbn [of_range i_map]. rewrite map_map. f_equal. f_equal. destruct q; reflexivity.
      * intros i Hi. apply R3; auto. cbn [of_range i_map]. apply in_map. auto.
  - (* negate *) destruct (evali m a) as [(y, m1)|] eqn:EA; [|discriminate]. injection E as <- <-. destruct (IHa m b used M U FR) as (_ & H).
    destruct (H _ _ EA) as (M1 & (TB & T)). split; auto. destruct (negate_table ds y TB) as (N1 & N2). split; auto.
    intros s S. cbn [value_of]. rewrite T, N2 by auto. auto.
  - (* operator *) destruct FR as (FA & FC). destruct (evali m a) as [(y, m1)|] eqn:EA; [|discriminate]. destruct (IHa m b used M U FA) as (_ & H).
    destruct (H _ _ EA) as (M1 & (TB & T)). destruct (evali m1 c) as [(y2, m2)|] eqn:EC; [|discriminate].
    destruct (IHc m1 b used M1 U FC) as (_ & H2). destruct (H2 _ _ EC) as (M2 & (TB2 & T2)).
    destruct (defeq_binop y y2 op) as [z'|] eqn:BO; [|discriminate]. cbn in E. injection E as <- <-. split; auto.
    destruct (binop_some ds INH y y2 op z' TB TB2 BO) as (B1 & B2). split; auto. intros s S. cbn [value_of]. rewrite T, T2, <- op_agree by auto. auto.
  - (* if *) destruct FR as (FC & FA & FD). destruct (evalf m c) as [(p, m1)|] eqn:EC; [|discriminate]. destruct (IHc m b used M U FC) as (H & _).
    destruct (H _ _ EC) as (M1 & (ST & T)). destruct (tautology_ck ds p) eqn:TT; [|destruct (sat_ck ds p) eqn:SAT; [discriminate|]]; cbn [negb] in E.
    + destruct (IHa m1 b used M1 U FA) as (_ & H2). destruct (H2 _ _ E) as (M2 & (TB & T2)). split; auto. split; auto.
      intros s S. cbn [value_of]. rewrite T, (taut_static p TT s S), T2 by auto. auto.
    + destruct (IHd m1 b used M1 U FD) as (_ & H2). destruct (H2 _ _ E) as (M2 & (TB & T2)). split; auto. split; auto.
      intros s S. cbn [value_of]. rewrite T, (unsat_static p SAT s S), T2 by auto. auto.
  - (* array *) destruct (evali m i) as [(y, m1)|] eqn:EI; [|discriminate]. destruct (IHi m b used M U FR) as (_ & H).
    destruct (H _ _ EI) as (M1 & (TB & T)). destruct (i_map y) as [|k [|? ?]] eqn:IM; try discriminate.
    rewrite (d_consts _ _ _ _ D) in E. pose proof (d_array_once _ _ _ _ D x) as AO.
    destruct (assoc x (g_consts G)) as [l|] eqn:CL.
    + unfold umod_int in E. fold (member l k) in E. destruct (member l k) as [v|] eqn:MK; [|discriminate]. cbn in E. injection E as <- <-. split; auto.
      destruct (of_int_table ds v) as (T' & H'). split; auto. intros s S. cbn [value_of]. rewrite T, (single y k TB IM s S) by auto.
      destruct (assoc x (g_arrays G)) as [l'|] eqn:AL; [exfalso; specialize (AO ltac:(discriminate)); discriminate|]. rewrite CL, MK, H'. auto.
    + unfold lookup_vbl in E. rewrite (d_arrays _ _ _ _ D) in E. destruct (assoc x (g_arrays G)) as [l|] eqn:AL; [|discriminate].
      unfold umod_int in E. fold (member l k) in E. destruct (member l k) as [v|] eqn:MK; [|discriminate].
      assert (E' : (of_vbl ds v, m1) = (z, m')) by (destruct P as [u|]; [destruct (existsb (Nat.eqb v) (u_rvbls u)); [|discriminate]|]; cbn in E; congruence).
      injection E' as <- <-. split; auto.
      assert (V : v < length ds).
      { destruct (d_members _ _ _ _ D x l AL) as (_ & W). rewrite Forall_forall in W. apply W. unfold member in MK. eapply nth_error_In; eauto. }
      destruct (of_vbl_table ds v V) as (T' & H'). split; auto. intros s S. cbn [value_of]. rewrite T, (single y k TB IM s S) by auto.
      rewrite AL, MK, H' by auto. auto.
Qed.
End Sound.
