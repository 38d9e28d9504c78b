(** The text of actions, of several assumptions and of several invariants. *)
From Coq Require Import String List Arith Bool ZArith Lia.
From Verif Require Import FmlaModel IntModel ExprModel ExprSpec ActModel NetModel CmdModel ParseModel ParseSpec ParseProofs ParseProofs2 ParseProofs3.
Import ListNotations.
Local Open Scope list_scope.

Lemma print_head : forall e rest r, print e ++ rest <> TWild :: r.
Proof.
  induction e; intros rest r; simpl; try discriminate; try (rewrite print_app; apply IHe1).
  destruct op; simpl; try discriminate; rewrite print_app; apply IHe1.
Qed.
Section Text.
Variable preds : list string.
Definition raw_assign (a : assignment) : Prop :=
  match a with ASet _ i v => raw preds i /\ match v with Some e => raw preds e | None => True end | _ => True end.
Lemma take_ref_raw : forall ts x i r, take_ref preds ts = Some (x, i, r) -> raw preds i.
Proof.
  intros ts x i r H; unfold take_ref in H. destruct ts as [|t ts]; [discriminate|]. destruct t; try discriminate.
  destruct ts as [|t ts]; [discriminate|]. destruct t; try discriminate.
  destruct (take_expr preds ts) as [[e r0]|] eqn:E; [|discriminate]. destruct r0 as [|t r0]; [discriminate|]. destruct t; try discriminate.
  injection H as <- <- <-. apply read_raw in E; auto.
Qed.
Lemma take_set_raw : forall ts a r, take_set preds ts = Some (a, r) -> raw_assign a.
Proof.
  intros u a r H. unfold take_set in H. destruct (take_ref preds u) as [[[x i] r0]|] eqn:E; [|discriminate]. apply take_ref_raw in E.
  destruct r0 as [|t r0]; [discriminate|]. destruct t; try discriminate; [|injection H as <- <-; simpl; auto].
  assert (D : match take_expr preds r0 with Some (v, TSemi :: r') => Some (ASet x i (Some v), r') | _ => None end = Some (a, r) -> raw_assign a).
  { clear H; intros H. destruct (take_expr preds r0) as [[v r1]|] eqn:E1; [|discriminate].
    destruct r1 as [|t r1]; [discriminate|]. destruct t; try discriminate. injection H as <- <-. apply read_raw in E1; simpl; auto. }
  destruct r0 as [|t r0]; [auto|]. destruct t; auto. destruct r0 as [|t r0]; [auto|]. destruct t; auto. injection H as <- <-; simpl; auto.
Qed.
Lemma take_assign_raw : forall ts a r, take_assign preds ts = Some (a, r) -> raw_assign a.
Proof.
  intros ts a r H. unfold take_assign in H.
  destruct ts as [|t ts]; [discriminate|]. destruct t; try (eapply take_set_raw; exact H).
  destruct ts as [|t ts]; [discriminate|]. destruct t; try discriminate; [|injection H as <- <-; exact I].
  destruct ts as [|t ts]; [discriminate|]. destruct t; try discriminate.
  destruct ts as [|t ts]; [discriminate|]. destruct t; try discriminate. injection H as <- <-; exact I.
Qed.
Lemma take_assigns_raw : forall n ts l r, take_assigns preds n ts = (l, r) -> Forall raw_assign l.
Proof.
  induction n; simpl; intros ts l r H; [injection H as <- <-; constructor|].
  destruct (take_assign preds ts) as [[a r0]|] eqn:E; [|injection H as <- <-; constructor].
  destruct (take_assigns preds n r0) as [l' r'] eqn:E1. injection H as <- <-. constructor; eauto using take_assign_raw.
Qed.
Lemma read_action_raw : forall ts a, read_action preds ts = Some a -> raw preds (a_guard a) /\ Forall raw_assign (a_assigns a).
Proof.
  intros ts a H; unfold read_action in H. destruct ts as [|t ts]; [discriminate|]. destruct t; try discriminate.
  destruct (take_expr preds ts) as [[g r]|] eqn:E; [|discriminate]. destruct r as [|t r]; [discriminate|].
  destruct t; try discriminate; destruct (take_assigns preds (length r) r) as [l r2] eqn:E1;
  (destruct r2 as [|t r2]; [discriminate|]; destruct t; try discriminate; destruct r2; [|discriminate]; injection H as <-);
  simpl; split; eauto using read_raw, take_assigns_raw.
Qed.

Lemma take_ref_back : forall x i rest, raw preds i -> iffs_apart i -> take_ref preds (print (SAref x i) ++ rest) = Some (x, i, rest).
Proof. intros x i rest H1 H2; simpl. rewrite <- app_assoc; simpl. rewrite take_back; auto. simpl; lia. Qed.
Lemma take_assign_back : forall a rest, raw_assign a -> apart_assign a -> take_assign preds (print_assign a ++ rest) = Some (a, rest).
Proof.
  intros a rest H1 H2. destruct a as [| |x i v]; [reflexivity|reflexivity|].
  destruct H1 as [H1 H3], H2 as [H2 H4]. unfold print_assign. rewrite <- app_assoc.
  assert (E : forall u, take_assign preds (print (SAref x i) ++ u) =
    match u with
    | TSet :: TWild :: TSemi :: r => Some (ASet x i None, r)
    | TSet :: r => match take_expr preds r with Some (v, TSemi :: r') => Some (ASet x i (Some v), r') | _ => None end
    | TSemi :: r => Some (ASet x i (Some (SAref x i)), r)
    | _ => None
    end).
  { intros u. pose proof (take_ref_back x i u H1 H2) as E. change (take_assign preds (print (SAref x i) ++ u)) with (take_set preds (print (SAref x i) ++ u)).
    unfold take_set. rewrite E. reflexivity. }
  rewrite E. simpl. destruct v as [e|]; [|reflexivity]. rewrite <- app_assoc; simpl.
  pose proof (print_head e (TSemi :: rest)) as HW. pose proof (take_back preds e (TSemi :: rest) H3 H4 ltac:(simpl; lia)) as HT.
  destruct (print e ++ TSemi :: rest) as [|t w]; [rewrite HT; reflexivity|].
  destruct t; try (rewrite HT; reflexivity). destruct (HW w eq_refl).
Qed.
Lemma take_assigns_back : forall l n, length l <= n -> Forall raw_assign l -> Forall apart_assign l ->
  take_assigns preds n (concat (map print_assign l) ++ [TRp]) = (l, [TRp]).
Proof.
  induction l; intros n Hn H1 H2; simpl.
  - destruct n; reflexivity.
  - destruct n; [simpl in Hn; lia|]. inversion H1; inversion H2; subst. simpl. rewrite <- app_assoc, take_assign_back; auto.
    rewrite IHl; auto. simpl in Hn; lia.
Qed.
Lemma assigns_length : forall l, length l <= length (concat (map print_assign l)).
Proof.
  induction l; simpl; [lia|]. rewrite app_length. assert (1 <= length (print_assign a)); [|lia].
  destruct a; simpl; try lia; rewrite ?app_length; simpl; lia.
Qed.
Lemma action_back : forall a, raw preds (a_guard a) -> Forall raw_assign (a_assigns a) -> apart_action a ->
  read_action preds (print_action a) = Some a.
Proof.
  intros [c g l] H1 H2 [H3 H4]; simpl in *. unfold print_action; simpl.
  rewrite take_back; auto; [|destruct c; simpl; lia].
  assert (E : take_assigns preds (length (concat (map print_assign l) ++ [TRp])) (concat (map print_assign l) ++ [TRp]) = (l, [TRp])).
  { apply take_assigns_back; auto. rewrite app_length. pose proof (assigns_length l); lia. }
  destruct c; rewrite E; reflexivity.
Qed.

(** Assumptions *)
Definition wrap (e : sexp) : sexp :=
  match e with SBool _ | SInt _ => e | _ => if isint e then SInt e else SBool e end.
Lemma wrap_raw : forall e, raw preds e -> raw preds (wrap e).
Proof. intros e H; assert (D : raw preds (if isint e then SInt e else SBool e)) by (destruct (isint e) eqn:E; simpl; auto). destruct e; auto. Qed.
Lemma wrap_rank : forall e, rank (wrap e) = 0.
Proof. intros e; assert (D : rank (if isint e then SInt e else SBool e) = 0) by (destruct (isint e); auto). destruct e; auto. Qed.
Lemma wrap_apart : forall e, iffs_apart e -> iffs_apart (wrap e).
Proof. intros e H; assert (D : iffs_apart (if isint e then SInt e else SBool e)) by (destruct (isint e) eqn:E; simpl; auto). destruct e; auto. Qed.
Lemma wrap_iff : forall e, is_iff (wrap e) = false.
Proof. intros e; assert (D : is_iff (if isint e then SInt e else SBool e) = false) by (destruct (isint e); auto). destruct e; auto. Qed.
Lemma wrap_print : forall e, print (wrap e) = parend e.
Proof. intros e; assert (D : print (if isint e then SInt e else SBool e) = TLp :: print e ++ [TRp]) by (destruct (isint e); auto). destruct e; auto. Qed.
Lemma wrap_truth : forall G b e s, truth G b (wrap e) s = truth G b e s.
Proof. intros G b e s; assert (D : truth G b (if isint e then SInt e else SBool e) s = truth G b e s) by (destruct (isint e); auto). destruct e; auto. Qed.
(** The tree of the whole text *)
Definition assumed (a : sexp) (l : list sexp) : sexp := fold_left (fun a e => SAnd a (wrap e)) l a.
Lemma assumed_text : forall l a, print a <> [] -> print (assumed a l) = fold_left add_assume_text l (print a).
Proof.
  induction l; intros e0 H; [reflexivity|]. change (assumed e0 (a :: l)) with (assumed (SAnd e0 (wrap a)) l). rewrite IHl; simpl.
  - f_equal. destruct (print e0) eqn:E; [contradiction|]. simpl. rewrite wrap_print. reflexivity.
  - destruct (print e0); discriminate.
Qed.
Lemma assumed_good : forall l a, Forall (fun e => raw preds e /\ iffs_apart e) l ->
  raw preds a -> iffs_apart a -> rank a <= 7 -> is_iff a = false -> open a = false ->
  raw preds (assumed a l) /\ iffs_apart (assumed a l).
Proof.
  induction l as [|e l IH]; intros a HF H1 H2 H3 H4 H5; [simpl; auto|]. change (assumed a (e :: l)) with (assumed (SAnd a (wrap e)) l). inversion HF as [|? ? [E1 E2] HF']; subst.
  pose proof (wrap_rank e) as HR. pose proof (wrap_iff e). apply IH; auto; simpl.
  - repeat split; auto using wrap_raw; apply fit_rank; lia.
  - auto using wrap_apart.
  - apply rank_open; lia.
Qed.
Lemma assumed_truth : forall G b s l a, truth G b (assumed a l) s = together (truth G b a s :: map (fun e => truth G b e s) l).
Proof.
  intros G b s; induction l; intros e0.
  - simpl; destruct (truth G b e0 s) as [[|]|]; reflexivity.
  - change (assumed e0 (a :: l)) with (assumed (SAnd e0 (wrap a)) l). rewrite IHl. simpl. rewrite wrap_truth. destruct (truth G b e0 s) as [[|]|]; reflexivity.
Qed.
Lemma print_nonempty : forall e, print e <> [].
Proof.
  intros e H. destruct e; simpl in H; try discriminate; try (destruct (print e1); discriminate).
  destruct op; try discriminate; destruct (print e1); discriminate.
Qed.
Lemma assumptions_back : forall e l, Forall (fun e => raw preds e /\ iffs_apart e) (e :: l) ->
  exists a, read_expr preds (fold_left add_assume_text (e :: l) []) = Some a /\
    forall G b s, truth G b a s = together (map (fun e => truth G b e s) (e :: l)).
Proof.
  intros e l HF. inversion HF as [|? ? [E1 E2] HF']; subst. exists (assumed (wrap e) l). split.
  - cbn [fold_left]. unfold add_assume_text at 2. rewrite <- wrap_print, <- assumed_text by apply print_nonempty.
    apply read_expr_take. pose proof (wrap_rank e) as HR.
    destruct (assumed_good l (wrap e) HF') as [G1 G2]; auto using wrap_raw, wrap_apart, wrap_iff; try lia; [apply rank_open; lia|].
    rewrite <- (app_nil_r (print _)). apply take_back; simpl; auto.
  - intros G b s. rewrite assumed_truth. simpl. rewrite wrap_truth. reflexivity.
Qed.

(** Invariants: "(old) && e" *)
Fixpoint graft (acc e : sexp) : sexp := match e with SAnd a b => SAnd (graft acc a) b | _ => SAnd acc e end.
Lemma graft_truth : forall G b s e acc, truth G b (graft acc e) s = match truth G b acc s with Some true => truth G b e s | o => o end.
Proof.
  intros G b s; induction e; intros acc; try reflexivity. simpl. rewrite IHe1. destruct (truth G b acc s) as [[|]|]; reflexivity.
Qed.
Lemma graft_chain : forall e acc i rest n, raw preds e -> iffs_apart e -> rank e <= 7 -> cond 6 e rest ->
  S (length (print e ++ rest)) <= n ->
  chain and_op false (chainless preds (reader preds)) n acc i (TAnd :: print e ++ rest) =
  chain and_op false (chainless preds (reader preds)) (length rest) (graft acc e) false rest.
Proof.
  assert (HS : shrink (chainless preds (reader preds))) by apply chainless_shrink, reader_shrink.
  assert (D : forall e acc i rest n, raw preds e -> iffs_apart e -> rank e <= 6 -> cond 6 e rest ->
    S (length (print e ++ rest)) <= n ->
    chain and_op false (chainless preds (reader preds)) n acc i (TAnd :: print e ++ rest) =
    chain and_op false (chainless preds (reader preds)) (length rest) (SAnd acc e) false rest).
  { intros e acc i rest n H1 H2 H3 H4 H5. destruct n; [lia|]. simpl.
    destruct (read_all preds e H1 H2) as (_ & _ & _ & _ & _ & _ & K6 & _). rewrite K6; auto.
    apply chain_fuel; auto. rewrite app_length in H5; lia. }
  induction e; intros acc i rest n0 H1 H2 H3 H4 H5; try (apply D; auto; simpl in *; lia).
  2: apply D; auto; destruct op; simpl; lia.
  simpl. simpl in H1, H2. destruct H1 as (R1 & R2 & F1 & F2 & O1). destruct H2 as (N1 & N2 & I1 & I2).
  apply rank_fit in F1; apply rank_fit in F2; auto. rewrite print_app. simpl in H5; rewrite print_app in H5.
  rewrite IHe1; auto. split; [simpl; lia|rewrite O1; discriminate].
Qed.
Lemma legit_text : forall old e rest a i, raw preds e -> iffs_apart e -> rank e <= 7 -> tstop 10 rest ->
  let ts := TLp :: old ++ TRp :: TAnd :: print e ++ rest in
  expression preds (reader preds) (old ++ TRp :: TAnd :: print e ++ rest) = Some (a, i, TRp :: TAnd :: print e ++ rest) ->
  expression preds (reader preds) ts = Some (graft (if i then SInt a else SBool a) e, false, rest).
Proof.
  intros old e rest a i H1 H2 H3 H4 ts HA. set (w := if i then SInt a else SBool a). set (r := TAnd :: print e ++ rest).
  assert (S0 : funcall (reader preds) ts = Some (w, i, r)).
  { unfold ts; simpl. rewrite reader_expr, HA. reflexivity. }
  assert (S2 : neg (reader preds) ts = Some (w, i, r)).
  { change (neg (reader preds) ts) with (power (reader preds) ts). unfold power, chained. rewrite S0. reflexivity. }
  assert (S4 : sum (reader preds) ts = Some (w, i, r)).
  { unfold sum, product, chained. rewrite S2. reflexivity. }
  assert (S6 : chainless preds (reader preds) ts = Some (w, i, r)).
  { unfold chainless. change (quantify (reader preds) ts) with (@None (sexp * bool * list tok)).
    unfold comparison. rewrite S4. reflexivity. }
  assert (S7 : conjunction preds (reader preds) ts = Some (graft w e, false, rest)).
  { unfold conjunction, chained. rewrite S6. unfold r. rewrite graft_chain; auto.
    - apply chain_stop. intros t r' ->; simpl in H4; destruct t; simpl in *; auto; lia.
    - split; auto. eapply tstop_le; eauto. }
  unfold expression. change (quantify (reader preds) ts) with (@None (sexp * bool * list tok)).
  change (if_then_else (reader preds) ts) with (@None (sexp * bool * list tok)).
  unfold biimplication, implication, disjunction, chained. rewrite S7.
  repeat (rewrite chain_stop; [|intros t r' ->; simpl in H4; destruct t; simpl in *; auto; lia]). reflexivity.
Qed.
Lemma tight_rank : forall e, weaker_than_and e = false -> rank e <= 7.
Proof. intros e H; destruct e; simpl in *; try discriminate; try lia. destruct op; lia. Qed.
Lemma legits_back : forall l old vs, old <> [] ->
  Forall (fun e => raw preds e /\ iffs_apart e /\ weaker_than_and e = false) l ->
  (exists a i, (forall rest, tstop 10 rest -> expression preds (reader preds) (old ++ rest) = Some (a, i, rest)) /\
     forall G b s, truth G b a s = together (vs G b s)) ->
  exists a i, (forall rest, tstop 10 rest -> expression preds (reader preds) (fold_left add_legit_text l old ++ rest) = Some (a, i, rest)) /\
     forall G b s, truth G b a s = together (vs G b s ++ map (fun e => truth G b e s) l).
Proof.
  induction l as [|e l IH]; intros old vs HO HF (a & i & HR & HT).
  - exists a, i; split; auto. intros; rewrite app_nil_r; auto.
  - inversion HF as [|? ? (E1 & E2 & E3) HF']; subst. apply tight_rank in E3. simpl.
    destruct (IH (add_legit_text old e) (fun G b s => vs G b s ++ [truth G b e s])) as (a' & i' & HR' & HT'); auto.
    + destruct old; [contradiction|discriminate].
    + exists (graft (if i then SInt a else SBool a) e), false. split.
      * intros rest Hs. assert (HE : add_legit_text old e ++ rest = TLp :: old ++ TRp :: TAnd :: print e ++ rest).
        { unfold add_legit_text. destruct old as [|t0 o]; [contradiction|].
          change ((TLp :: (t0 :: o) ++ TRp :: TAnd :: print e) ++ rest) with (TLp :: ((t0 :: o) ++ TRp :: TAnd :: print e) ++ rest).
          rewrite <- app_assoc; reflexivity. }
        rewrite HE. apply legit_text; auto. apply HR. simpl; lia.
      * intros G b s. rewrite graft_truth.
        assert (W : truth G b (if i then SInt a else SBool a) s = truth G b a s) by (destruct i; reflexivity).
        rewrite W, HT. induction (vs G b s) as [|[[|]|] v IHv]; simpl; auto. destruct (truth G b e s) as [[|]|]; auto.
    + exists a', i'; split; auto. intros G b s. rewrite HT', <- app_assoc. reflexivity.
Qed.
Lemma invariants_back : forall e l, raw preds e -> iffs_apart e ->
  Forall (fun e => raw preds e /\ iffs_apart e /\ weaker_than_and e = false) l ->
  exists a, read_expr preds (fold_left add_legit_text (e :: l) []) = Some a /\
    forall G b s, truth G b a s = together (map (fun e => truth G b e s) (e :: l)).
Proof.
  intros e l H1 H2 HF.
  destruct (legits_back l (print e) (fun G b s => [truth G b e s]) (print_nonempty e) HF) as (a & i & HR & HT).
  { exists e, (isint e). split; [|intros G b s; simpl; destruct (truth G b e s) as [[|]|]; auto].
    intros rest Hs. rewrite <- reader_expr. apply read_back; auto. }
  exists a. split; [|intros G b s; rewrite HT; reflexivity].
  apply read_expr_take. simpl. unfold take_expr. fold (reader preds RExpr (fold_left add_legit_text l (print e))).
  rewrite reader_expr. specialize (HR [] I). rewrite app_nil_r in HR. rewrite HR. reflexivity.
Qed.
End Text.
