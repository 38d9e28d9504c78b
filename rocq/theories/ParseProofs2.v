(** A tree that fits the grammar is read back from its text. *)
From Coq Require Import String List Arith Bool ZArith Lia.
From Verif Require Import FmlaModel IntModel ExprModel ActModel NetModel CmdModel ParseModel ParseSpec ParseProofs.
Import ListNotations.
Local Open Scope list_scope.

(** The rule that makes the root of a tree, from tight (0: Value, IntFuncall) to loose (11: Expr). *)
Definition rank (e : sexp) : nat :=
  match e with
  | SName _ | SNat _ | SBool _ | SInt _ | SAref _ _ => 0
  | SBin op _ _ => match op with MinOp | MaxOp => 0 | PowOp => 1 | MulOp | DivOp | ModOp => 3 | AddOp | SubOp => 4 end
  | SNeg _ | SNot _ => 2
  | SCmp _ _ _ | SXor _ _ => 5
  | SQuant _ _ _ _ => 6
  | SAnd _ _ => 7 | SOr _ _ => 8 | SImp _ _ => 9 | SIff _ _ => 10
  | SIif _ _ _ => 11
  end.
(** Equalities of predicates are made by rule Comparison as well. *)
Definition fit (k : nat) (e : sexp) : Prop :=
  match e with
  | SIff a b => 10 <= k \/ (5 <= k /\ rank a <= 4 /\ rank b <= 4)
  | _ => rank e <= k
  end.
(** The tree ends with the body of a quantifier or the last branch of an if. *)
Fixpoint open (e : sexp) : bool :=
  match e with
  | SQuant _ _ _ _ | SIif _ _ _ => true
  | SAnd _ b | SOr _ b | SImp _ b | SIff _ b => open b
  | _ => false
  end.
Definition bin_fit (op : intop) (a b : sexp) : Prop :=
  match op with
  | MinOp | MaxOp => rank a <= 4 /\ rank b <= 4
  | PowOp => rank a <= 0 /\ rank b <= 2
  | MulOp | DivOp | ModOp => rank a <= 3 /\ rank b <= 2
  | AddOp | SubOp => rank a <= 4 /\ rank b <= 3
  end.
(** Trees of ConstIntExpr *)
Fixpoint craw (e : sexp) : Prop :=
  match e with
  | SName _ | SNat _ => True
  | SInt a => craw a /\ rank a <= 4
  | SNeg a => craw a /\ rank a <= 1
  | SBin op a b => craw a /\ craw b /\ bin_fit op a b
  | _ => False
  end.
Section Raw.
Variable preds : list string.
(** Trees of Expr *)
Fixpoint raw (e : sexp) : Prop :=
  match e with
  | SName _ | SNat _ => True
  | SBool a => raw a /\ isint a = false
  | SInt a => raw a /\ isint a = true
  | SAref _ i => raw i
  | SNeg a | SNot a => raw a /\ rank a <= 1
  | SBin op a b => raw a /\ raw b /\ bin_fit op a b
  | SCmp c a b => raw a /\ raw b /\ rank a <= 4 /\ rank b <= 4 /\
      match c with CEq | CNe => not_int preds a (isint a) (isint b) = false | _ => True end
  | SXor a b => raw a /\ raw b /\ rank a <= 4 /\ rank b <= 4 /\ not_int preds a (isint a) (isint b) = true
  | SQuant _ _ n body => craw n /\ rank n <= 4 /\ raw body
  | SAnd a b => raw a /\ raw b /\ fit 7 a /\ fit 6 b /\ open a = false
  | SOr a b => raw a /\ raw b /\ fit 8 a /\ fit 7 b /\ open a = false
  | SImp a b => raw a /\ raw b /\ fit 9 a /\ fit 8 b /\ open a = false
  | SIff a b => raw a /\ raw b /\ fit 10 a /\ fit 9 b /\ open a = false
  | SIif c a b => raw c /\ raw a /\ raw b /\ isint a = true /\ isint b = true
  end.
End Raw.

Lemma rank_fit : forall e k, is_iff e = false -> fit k e -> rank e <= k.
Proof. intros e k H; destruct e; try discriminate H; auto. Qed.
Lemma rank_open : forall e, rank e <= 5 -> open e = false.
Proof. intros e; destruct e; simpl; auto; try lia; try (destruct op; simpl; auto; lia). Qed.
Lemma rank_bin : forall op a b k, rank (SBin op a b) <= k ->
  match op with MinOp | MaxOp => True | PowOp => 1 <= k | MulOp | DivOp | ModOp => 3 <= k | AddOp | SubOp => 4 <= k end.
Proof. intros op a b k H; destruct op; simpl in H; auto. Qed.

(** How loose the rule is in which a token goes on with an expression. *)
Definition tlev (t : tok) : nat :=
  match t with
  | TLb | TLp => 0
  | TPow => 1
  | TMul | TDiv | TMod => 3
  | TPlus | TMinus => 4
  | TCmp _ => 5
  | TAnd => 7 | TOr => 8 | TImp => 9 | TIff => 10
  | _ => 12
  end.
Definition tstop (k : nat) (r : list tok) : Prop := match r with t :: _ => k < tlev t | [] => True end.
Lemma tstop_le : forall k j r, tstop k r -> j <= k -> tstop j r.
Proof. intros k j [|t r]; simpl; auto; lia. Qed.

Lemma chain_stop : forall op flag sub n a i r, (forall t r', r = t :: r' -> op t = None) ->
  chain op flag sub n a i r = Some (a, i, r).
Proof. intros op flag sub n a i r H; destruct n; [reflexivity|]. destruct r; [reflexivity|]. simpl; rewrite (H t r eq_refl); reflexivity. Qed.
Lemma lift_low : forall op flag p q ts e i rest, p ts = Some (e, i, rest) ->
  chained op flag p q ts = chain op flag q (length rest) e i rest.
Proof. intros op flag p q ts e i rest H; unfold chained; rewrite H; reflexivity. Qed.
Lemma lift_bin : forall op flag p q ts a ia t u b ib rest c, shrink q ->
  chained op flag p q ts = chain op flag q (length (t :: u)) a ia (t :: u) -> op t = Some c ->
  q u = Some (b, ib, rest) ->
  chained op flag p q ts = chain op flag q (length rest) (c a b) flag rest.
Proof.
  intros op flag p q ts a ia t u b ib rest c HS H Ht Hb. rewrite H; simpl. rewrite Ht, Hb.
  apply chain_fuel; auto. apply HS in Hb; lia.
Qed.

Lemma print_app : forall a t b rest, (a ++ t :: b) ++ rest = a ++ t :: b ++ rest :> list tok.
Proof. intros; rewrite <- app_assoc; reflexivity. Qed.

(** Constants *)
Lemma chead : forall e rest, craw e -> rank e <= 1 -> forall r, print e ++ rest <> TMinus :: r.
Proof.
  induction e; simpl; intros rest H Hr r; try tauto; try discriminate; try lia.
  destruct op; simpl in *; try lia; try discriminate.
  destruct H as (H1 & H2 & H3 & H4). rewrite print_app. apply IHe1; auto; lia.
Qed.
Ltac tail := simpl; rewrite ?print_app, <- ?app_assoc; simpl; reflexivity.

Definition cread0 (e : sexp) : Prop := forall rest, rank e <= 0 -> tstop 0 rest -> cfuncall creader (print e ++ rest) = Some (e, true, rest).
Definition cread1 (e : sexp) : Prop := forall rest, rank e <= 1 -> tstop 1 rest -> cpower creader (print e ++ rest) = Some (e, true, rest).
Definition cread2 (e : sexp) : Prop := forall rest, rank e <= 2 -> tstop 1 rest -> cneg creader (print e ++ rest) = Some (e, true, rest).
Definition cread3 (e : sexp) : Prop := forall rest, rank e <= 3 -> tstop 2 rest ->
  cproduct creader (print e ++ rest) = chain mul_op true (cneg creader) (length rest) e true rest.
Definition cread4 (e : sexp) : Prop := forall rest, rank e <= 4 -> tstop 3 rest ->
  csum creader (print e ++ rest) = chain add_op true (cproduct creader) (length rest) e true rest.
Lemma cproduct_done : forall e rest, cread3 e -> rank e <= 3 -> tstop 3 rest -> cproduct creader (print e ++ rest) = Some (e, true, rest).
Proof.
  intros e rest H Hr Hs. rewrite H; auto; [|eapply tstop_le; eauto]. apply chain_stop.
  intros t r' ->; simpl in Hs; destruct t; simpl in *; auto; lia.
Qed.
Lemma csum_done : forall e rest, cread4 e -> rank e <= 4 -> tstop 4 rest -> csum creader (print e ++ rest) = Some (e, true, rest).
Proof.
  intros e rest H Hr Hs. rewrite H; auto; [|eapply tstop_le; eauto]. apply chain_stop.
  intros t r' ->; simpl in Hs; destruct t; simpl in *; auto; lia.
Qed.
Definition call (e : sexp) : Prop := cread0 e /\ cread1 e /\ cread2 e /\ cread3 e /\ cread4 e.
Lemma cup1 : forall e, rank e <= 0 -> cread0 e -> cread1 e.
Proof.
  intros e Hr K rest _ Hs. unfold cpower. rewrite (lift_low _ _ _ _ _ e true rest).
  - apply chain_stop. intros t r' ->; simpl in Hs; destruct t; simpl in *; auto; lia.
  - apply K; auto. eapply tstop_le; eauto.
Qed.
Lemma cup2 : forall e, craw e -> rank e <= 1 -> cread1 e -> cread2 e.
Proof.
  intros e HC Hr K rest _ Hs. unfold cneg. pose proof (chead e rest HC Hr) as Hh.
  rewrite <- (K rest Hr Hs). destruct (print e ++ rest) as [|t u]; [reflexivity|].
  destruct t; try reflexivity. destruct (Hh u eq_refl).
Qed.
Lemma cup3 : forall e, rank e <= 2 -> cread2 e -> cread3 e.
Proof. intros e Hr K rest _ Hs. unfold cproduct. apply lift_low, K; auto. eapply tstop_le; eauto. Qed.
Lemma cup4 : forall e, rank e <= 3 -> cread3 e -> cread4 e.
Proof. intros e Hr K rest _ Hs. unfold csum. apply lift_low, cproduct_done; auto. Qed.
Lemma cfrom4 : forall e, rank e = 4 -> cread4 e -> call e.
Proof. intros e Hr K; unfold call; repeat split; auto; intros rest H; lia. Qed.
Lemma cfrom3 : forall e, rank e = 3 -> cread3 e -> call e.
Proof. intros e Hr K; unfold call; repeat split; auto; try (intros rest H; lia). apply cup4; auto; lia. Qed.
Lemma cfrom2 : forall e, rank e = 2 -> cread2 e -> call e.
Proof. intros e Hr K; assert (K3 := cup3 e ltac:(lia) K); unfold call; repeat split; auto; try (intros rest H; lia). apply cup4; auto; lia. Qed.
Lemma cfrom1 : forall e, craw e -> rank e <= 1 -> cread0 e -> cread1 e -> call e.
Proof.
  intros e HC Hr K0 K. assert (K2 := cup2 e HC Hr K); assert (K3 := cup3 e ltac:(lia) K2).
  unfold call; repeat split; auto. apply cup4; auto; lia.
Qed.
Lemma cfrom0 : forall e, craw e -> rank e = 0 -> cread0 e -> call e.
Proof. intros e HC Hr K; apply cfrom1; auto; [lia|]. apply cup1; auto; lia. Qed.

Lemma cread_all : forall e, craw e -> call e.
Proof.
  induction e; intros HC; pose proof HC as HC0; simpl in HC; try tauto.
  - apply cfrom0; auto. intros rest _ Hs. destruct rest as [|t rest]; [reflexivity|].
    destruct t; simpl in Hs; try lia; reflexivity.
  - apply cfrom0; auto. intros rest _ Hs; reflexivity.
  - destruct HC as [HC Hr]. destruct (IHe HC) as (_ & _ & _ & _ & K4).
    apply cfrom0; auto. intros rest _ Hs; simpl. rewrite <- app_assoc; simpl. rewrite creader_sum, csum_done; auto; simpl; lia.
  - destruct HC as [HC Hr]. destruct (IHe HC) as (_ & K1 & _).
    apply cfrom2; auto. intros rest _ Hs; simpl. rewrite K1; auto.
  - destruct HC as (H1 & H2 & HB). destruct (IHe1 H1) as (A0 & A1 & A2 & A3 & A4). destruct (IHe2 H2) as (B0 & B1 & B2 & B3 & B4).
    destruct op; simpl in HB.
    1,2: apply cfrom4; [reflexivity|]; intros rest _ Hs; simpl; rewrite print_app;
      eapply (lift_bin _ _ _ _ _ e1 true _ (print e2 ++ rest) e2 true rest); [apply cproduct_shrink, creader_shrink|apply A4; simpl; lia|reflexivity|];
      apply cproduct_done; tauto.
    1,2,3: apply cfrom3; [reflexivity|]; intros rest _ Hs; simpl; rewrite print_app;
      eapply (lift_bin _ _ _ _ _ e1 true _ (print e2 ++ rest) e2 true rest); [apply cneg_shrink, creader_shrink|apply A3; simpl; lia|reflexivity|];
      apply B2; [tauto|eapply tstop_le; eauto].
    + apply cfrom1; [auto|simpl; lia|intros rest H; simpl in H; lia|].
      intros rest _ Hs. unfold cpower. simpl. rewrite print_app.
      erewrite (lift_bin _ _ _ _ _ e1 true TPow (print e2 ++ rest) e2 true rest); [| | |reflexivity|].
      * apply chain_stop. intros t r' ->; simpl in Hs; destruct t; simpl in *; auto; lia.
      * apply creader_shrink.
      * apply lift_low. apply A0; simpl; lia.
      * rewrite creader_neg. apply B2; [tauto|auto].
    + apply cfrom0; auto. intros rest _ Hs; simpl. rewrite print_app, <- app_assoc; simpl.
      rewrite creader_sum, csum_done by (simpl; auto; lia). rewrite creader_sum, csum_done by (simpl; auto; lia). reflexivity.
    + apply cfrom0; auto. intros rest _ Hs; simpl. rewrite print_app, <- app_assoc; simpl.
      rewrite creader_sum, csum_done by (simpl; auto; lia). rewrite creader_sum, csum_done by (simpl; auto; lia). reflexivity.
Qed.
Lemma const_read : forall e rest, craw e -> rank e <= 4 -> tstop 4 rest -> const_expr (print e ++ rest) = Some (e, true, rest).
Proof. intros e rest HC Hr Hs. rewrite const_expr_eq. apply csum_done; auto. apply cread_all; auto. Qed.

Section Expr.
Variable preds : list string.
Notation RD := (reader preds).
Notation good e := (raw preds e /\ iffs_apart e).

Lemma qhead : forall e rest q r, raw preds e -> print e ++ rest = TQuant q :: r -> exists q' x n b, e = SQuant q' x n b.
Proof.
  induction e; intros rest q0 r H HP; simpl in H, HP; try discriminate; eauto;
  try (rewrite print_app in HP; destruct (IHe1 _ _ _ (proj1 H) HP) as (q' & x' & n' & b' & ->); simpl in H; try (decompose [and] H; discriminate); exfalso; decompose [and] H; lia).
  destruct op; simpl in HP; try discriminate; rewrite print_app in HP;
  destruct (IHe1 _ _ _ (proj1 H) HP) as (q' & x' & n' & b' & ->); simpl in H; exfalso; decompose [and] H; lia.
Qed.
Lemma ihead : forall e rest r, raw preds e -> print e ++ rest = TIf :: r -> exists a b c, e = SIif a b c.
Proof.
  induction e; intros rest r H HP; simpl in H, HP; try discriminate; eauto;
  try (rewrite print_app in HP; destruct (IHe1 _ _ (proj1 H) HP) as (q' & x' & n' & ->); simpl in H; try (decompose [and] H; discriminate); exfalso; decompose [and] H; lia).
  destruct op; simpl in HP; try discriminate; rewrite print_app in HP;
  destruct (IHe1 _ _ (proj1 H) HP) as (q' & x' & n' & ->); simpl in H; exfalso; decompose [and] H; lia.
Qed.
Lemma nhead : forall e rest, raw preds e -> rank e <= 1 -> forall r, print e ++ rest <> TMinus :: r /\ print e ++ rest <> TBang :: r.
Proof.
  induction e; simpl; intros rest H Hr r; try tauto; try lia; try (split; discriminate).
  destruct op; simpl in *; try lia; try (split; discriminate).
  destruct H as (H1 & H2 & H3 & H4). rewrite print_app. apply IHe1; auto; lia.
Qed.
Lemma no_quantify : forall e rest, raw preds e -> rank e <> 6 -> quantify RD (print e ++ rest) = None.
Proof.
  intros e rest H Hr. unfold quantify. destruct (print e ++ rest) as [|t u] eqn:E; [reflexivity|].
  destruct t; try reflexivity. destruct (qhead e rest q u H E) as (? & ? & ? & ? & ->). simpl in Hr; lia.
Qed.
Lemma no_if : forall e rest, raw preds e -> rank e <> 11 -> if_then_else RD (print e ++ rest) = None.
Proof.
  intros e rest H Hr. unfold if_then_else. destruct (print e ++ rest) as [|t u] eqn:E; [reflexivity|].
  destruct t; try reflexivity. destruct (ihead e rest u H E) as (? & ? & ? & ->). simpl in Hr; lia.
Qed.

Definition cond (k : nat) (e : sexp) (rest : list tok) : Prop := tstop k rest /\ (open e = true -> tstop 10 rest).
Lemma cond_le : forall k j e rest, cond k e rest -> j <= k -> cond j e rest.
Proof. intros k j e rest [H1 H2] H; split; auto. eapply tstop_le; eauto. Qed.
Lemma cond_tight : forall k e rest, rank e <= 5 -> tstop k rest -> cond k e rest.
Proof. intros k e rest Hr H; split; auto. rewrite rank_open; auto; discriminate. Qed.

Definition read0 (e : sexp) : Prop := forall rest, rank e <= 0 -> tstop 0 rest -> funcall RD (print e ++ rest) = Some (e, isint e, rest).
Definition read1 (e : sexp) : Prop := forall rest, rank e <= 1 -> tstop 1 rest -> power RD (print e ++ rest) = Some (e, isint e, rest).
Definition read2 (e : sexp) : Prop := forall rest, rank e <= 2 -> tstop 1 rest -> neg RD (print e ++ rest) = Some (e, isint e, rest).
Definition read3 (e : sexp) : Prop := forall rest, rank e <= 3 -> tstop 2 rest ->
  product RD (print e ++ rest) = chain mul_op true (neg RD) (length rest) e (isint e) rest.
Definition read4 (e : sexp) : Prop := forall rest, rank e <= 4 -> tstop 3 rest ->
  sum RD (print e ++ rest) = chain add_op true (product RD) (length rest) e (isint e) rest.
Definition read5 (e : sexp) : Prop := forall rest, rank e <= 5 -> tstop 5 rest -> comparison preds RD (print e ++ rest) = Some (e, isint e, rest).
Definition read6 (e : sexp) : Prop := forall rest, rank e <= 6 -> cond 6 e rest -> chainless preds RD (print e ++ rest) = Some (e, isint e, rest).
Definition read7 (e : sexp) : Prop := forall rest, rank e <= 7 -> cond 6 e rest ->
  conjunction preds RD (print e ++ rest) = chain and_op false (chainless preds RD) (length rest) e (isint e) rest.
Definition read8 (e : sexp) : Prop := forall rest, rank e <= 8 -> cond 7 e rest ->
  disjunction preds RD (print e ++ rest) = chain or_op false (conjunction preds RD) (length rest) e (isint e) rest.
Definition read9 (e : sexp) : Prop := forall rest, rank e <= 9 -> cond 8 e rest ->
  implication preds RD (print e ++ rest) = chain imp_op false (disjunction preds RD) (length rest) e (isint e) rest.
Definition read10 (e : sexp) : Prop := forall rest, rank e <= 10 -> cond 9 e rest ->
  biimplication preds RD (print e ++ rest) = chain iff_op false (implication preds RD) (length rest) e (isint e) rest.
Definition read11 (e : sexp) : Prop := forall rest, tstop 10 rest -> expression preds RD (print e ++ rest) = Some (e, isint e, rest).

Ltac stops Hs := apply chain_stop; intros t r' ->; simpl in Hs; destruct t; simpl in *; auto; lia.
Lemma product_done : forall e rest, read3 e -> rank e <= 3 -> tstop 3 rest -> product RD (print e ++ rest) = Some (e, isint e, rest).
Proof. intros e rest H Hr Hs. rewrite H; auto; [|eapply tstop_le; eauto]. stops Hs. Qed.
Lemma sum_done : forall e rest, read4 e -> rank e <= 4 -> tstop 4 rest -> sum RD (print e ++ rest) = Some (e, isint e, rest).
Proof. intros e rest H Hr Hs. rewrite H; auto; [|eapply tstop_le; eauto]. stops Hs. Qed.
Lemma conjunction_done : forall e rest, read7 e -> rank e <= 7 -> cond 7 e rest -> conjunction preds RD (print e ++ rest) = Some (e, isint e, rest).
Proof. intros e rest H Hr Hs. rewrite H; auto; [|eapply cond_le; eauto]. destruct Hs as [Hs _]. stops Hs. Qed.
Lemma disjunction_done : forall e rest, read8 e -> rank e <= 8 -> cond 8 e rest -> disjunction preds RD (print e ++ rest) = Some (e, isint e, rest).
Proof. intros e rest H Hr Hs. rewrite H; auto; [|eapply cond_le; eauto]. destruct Hs as [Hs _]. stops Hs. Qed.
Lemma implication_done : forall e rest, read9 e -> rank e <= 9 -> cond 9 e rest -> implication preds RD (print e ++ rest) = Some (e, isint e, rest).
Proof. intros e rest H Hr Hs. rewrite H; auto; [|eapply cond_le; eauto]. destruct Hs as [Hs _]. stops Hs. Qed.

Lemma up1 : forall e, rank e <= 0 -> read0 e -> read1 e.
Proof.
  intros e Hr K rest _ Hs. unfold power. rewrite (lift_low _ _ _ _ _ e (isint e) rest).
  - stops Hs.
  - apply K; auto. eapply tstop_le; eauto.
Qed.
Lemma up2 : forall e, raw preds e -> rank e <= 1 -> read1 e -> read2 e.
Proof.
  intros e HC Hr K rest _ Hs. unfold neg. pose proof (nhead e rest HC Hr) as Hh.
  rewrite <- (K rest Hr Hs). destruct (print e ++ rest) as [|t u]; [reflexivity|].
  destruct t; try reflexivity; destruct (Hh u) as [H1 H2]; [destruct (H1 eq_refl)|destruct (H2 eq_refl)].
Qed.
Lemma up3 : forall e, rank e <= 2 -> read2 e -> read3 e.
Proof. intros e Hr K rest _ Hs. unfold product. apply lift_low, K; auto. eapply tstop_le; eauto. Qed.
Lemma up4 : forall e, rank e <= 3 -> read3 e -> read4 e.
Proof. intros e Hr K rest _ Hs. unfold sum. apply lift_low, product_done; auto. Qed.
Lemma up5 : forall e, rank e <= 4 -> read4 e -> read5 e.
Proof.
  intros e Hr K rest _ Hs. unfold comparison. rewrite sum_done; auto; [|eapply tstop_le; eauto].
  destruct rest as [|t rest]; [reflexivity|]. destruct t; try reflexivity. simpl in Hs; lia.
Qed.
Lemma up6 : forall e, raw preds e -> rank e <= 5 -> read5 e -> read6 e.
Proof.
  intros e HC Hr K rest _ [Hs _]. unfold chainless. rewrite no_quantify by (auto; lia). apply K; auto. eapply tstop_le; eauto.
Qed.
Lemma up7 : forall e, rank e <= 6 -> read6 e -> read7 e.
Proof. intros e Hr K rest _ Hs. unfold conjunction. apply lift_low, K; auto. Qed.
Lemma up8 : forall e, rank e <= 7 -> read7 e -> read8 e.
Proof. intros e Hr K rest _ Hs. unfold disjunction. apply lift_low, conjunction_done; auto. Qed.
Lemma up9 : forall e, rank e <= 8 -> read8 e -> read9 e.
Proof. intros e Hr K rest _ Hs. unfold implication. apply lift_low, disjunction_done; auto. Qed.
Lemma up10 : forall e, rank e <= 9 -> read9 e -> read10 e.
Proof. intros e Hr K rest _ Hs. unfold biimplication. apply lift_low, implication_done; auto. Qed.
Lemma up11 : forall e, raw preds e -> rank e <= 10 -> rank e <> 6 -> read10 e -> read11 e.
Proof.
  intros e HC Hr Hq K rest Hs. unfold expression. rewrite no_quantify, no_if by (auto; lia).
  rewrite K; auto; [stops Hs|]. split; [eapply tstop_le; eauto|auto].
Qed.

Definition all_read (e : sexp) : Prop :=
  read0 e /\ read1 e /\ read2 e /\ read3 e /\ read4 e /\ read5 e /\ read6 e /\ read7 e /\ read8 e /\ read9 e /\ read10 e /\ read11 e.
Ltac vac := intros rest H; lia.
Lemma from10 : forall e, raw preds e -> rank e = 10 -> read10 e -> all_read e.
Proof. intros e HC Hr K; unfold all_read; repeat split; auto; try vac. apply up11; auto; lia. Qed.
Lemma from9 : forall e, raw preds e -> rank e = 9 -> read9 e -> all_read e.
Proof.
  intros e HC Hr K; assert (K10 := up10 e ltac:(lia) K); unfold all_read; repeat split; auto; try vac.
  apply up11; auto; lia.
Qed.
Lemma from8 : forall e, raw preds e -> rank e = 8 -> read8 e -> all_read e.
Proof.
  intros e HC Hr K; assert (K9 := up9 e ltac:(lia) K); assert (K10 := up10 e ltac:(lia) K9).
  unfold all_read; repeat split; auto; try vac. apply up11; auto; lia.
Qed.
Lemma from7 : forall e, raw preds e -> rank e = 7 -> read7 e -> all_read e.
Proof.
  intros e HC Hr K; assert (K8 := up8 e ltac:(lia) K); assert (K9 := up9 e ltac:(lia) K8); assert (K10 := up10 e ltac:(lia) K9).
  unfold all_read; repeat split; auto; try vac. apply up11; auto; lia.
Qed.
Lemma from6 : forall e, raw preds e -> rank e = 6 -> read6 e -> read11 e -> all_read e.
Proof.
  intros e HC Hr K K11; assert (K7 := up7 e ltac:(lia) K); assert (K8 := up8 e ltac:(lia) K7); assert (K9 := up9 e ltac:(lia) K8); assert (K10 := up10 e ltac:(lia) K9).
  unfold all_read; repeat split; auto; try vac.
Qed.
Lemma from5 : forall e, raw preds e -> rank e <= 5 -> read0 e -> read1 e -> read2 e -> read3 e -> read4 e -> read5 e -> all_read e.
Proof.
  intros e HC Hr K0 K1 K2 K3 K4 K5. assert (K6 := up6 e HC Hr K5); assert (K7 := up7 e ltac:(lia) K6); assert (K8 := up8 e ltac:(lia) K7); assert (K9 := up9 e ltac:(lia) K8); assert (K10 := up10 e ltac:(lia) K9).
  unfold all_read; repeat split; auto; try vac. apply up11; auto; lia.
Qed.
Lemma from4 : forall e, raw preds e -> rank e = 4 -> read4 e -> all_read e.
Proof. intros e HC Hr K; apply from5; auto; try vac; try lia. apply up5; auto; lia. Qed.
Lemma from3 : forall e, raw preds e -> rank e = 3 -> read3 e -> all_read e.
Proof. intros e HC Hr K; assert (K4 := up4 e ltac:(lia) K); apply from5; auto; try vac; try lia. apply up5; auto; lia. Qed.
Lemma from2 : forall e, raw preds e -> rank e = 2 -> read2 e -> all_read e.
Proof.
  intros e HC Hr K; assert (K3 := up3 e ltac:(lia) K); assert (K4 := up4 e ltac:(lia) K3); apply from5; auto; try vac; try lia.
  apply up5; auto; lia.
Qed.
Lemma from1 : forall e, raw preds e -> rank e <= 1 -> read0 e -> read1 e -> all_read e.
Proof.
  intros e HC Hr K0 K; assert (K2 := up2 e HC ltac:(lia) K); assert (K3 := up3 e ltac:(lia) K2); assert (K4 := up4 e ltac:(lia) K3); apply from5; auto; try lia.
  apply up5; auto; lia.
Qed.
Lemma from0 : forall e, raw preds e -> rank e = 0 -> read0 e -> all_read e.
Proof. intros e HC Hr K; apply from1; auto; [lia|]. apply up1; auto; lia. Qed.

Lemma expr_done : forall e rest, all_read e -> tstop 10 rest -> RD RExpr (print e ++ rest) = Some (e, isint e, rest).
Proof. intros e rest K H. rewrite reader_expr. apply K; auto. Qed.
Lemma sum_done' : forall e rest, all_read e -> rank e <= 4 -> tstop 4 rest -> RD RSum (print e ++ rest) = Some (e, isint e, rest).
Proof. intros e rest K Hr H. rewrite reader_sum. apply sum_done; auto. apply K. Qed.

Lemma quantify_done : forall q x n b rest, craw n -> rank n <= 4 -> all_read b -> tstop 10 rest ->
  quantify RD (print (SQuant q x n b) ++ rest) = Some (SQuant q x n b, false, rest).
Proof.
  intros q x n b rest H1 H2 K H. simpl. rewrite print_app.
  rewrite const_read by (auto; simpl; lia). simpl. rewrite expr_done; auto.
Qed.
Lemma read_all : forall e, raw preds e -> iffs_apart e -> all_read e.
Proof.
  induction e; intros HC HI; pose proof HC as HC0; simpl in HC, HI.
  - (* name *) apply from0; auto. intros rest _ Hs. destruct rest as [|t rest]; [reflexivity|].
    destruct t; simpl in Hs; try lia; reflexivity.
  - apply from0; auto. intros rest _ Hs; reflexivity.
  - destruct HC as [HC Hf]. apply from0; auto. intros rest _ Hs; simpl. rewrite <- app_assoc; simpl.
    rewrite expr_done; auto; [rewrite Hf; reflexivity|simpl; lia].
  - destruct HC as [HC Hf]. apply from0; auto. intros rest _ Hs; simpl. rewrite <- app_assoc; simpl.
    rewrite expr_done; auto; [rewrite Hf; reflexivity|simpl; lia].
  - destruct HC as [HC Hr]. destruct (IHe HC HI) as (_ & K1 & _). apply from2; auto. intros rest _ Hs; simpl. rewrite K1; auto.
  - (* && *) destruct HC as (H1 & H2 & F1 & F2 & HO). destruct HI as (N1 & N2 & I1 & I2). apply rank_fit in F1; apply rank_fit in F2; auto.
    apply from7; auto. intros rest _ Hs; simpl; rewrite print_app.
    eapply (lift_bin _ _ _ _ _ e1 (isint e1) TAnd (print e2 ++ rest) e2 (isint e2) rest); [apply chainless_shrink, reader_shrink| |reflexivity|].
    + apply IHe1; auto. split; [simpl; lia|rewrite HO; discriminate].
    + apply IHe2; auto.
  - destruct HC as (H1 & H2 & F1 & F2 & HO). destruct HI as (N1 & N2 & I1 & I2). apply rank_fit in F1; apply rank_fit in F2; auto.
    apply from8; auto. intros rest _ Hs; simpl; rewrite print_app.
    eapply (lift_bin _ _ _ _ _ e1 (isint e1) TOr (print e2 ++ rest) e2 (isint e2) rest); [apply conjunction_shrink, reader_shrink| |reflexivity|].
    + apply IHe1; auto. split; [simpl; lia|rewrite HO; discriminate].
    + apply conjunction_done; auto. apply IHe2; auto.
  - destruct HC as (H1 & H2 & F1 & F2 & HO). destruct HI as (N1 & N2 & I1 & I2). apply rank_fit in F1; apply rank_fit in F2; auto.
    apply from9; auto. intros rest _ Hs; simpl; rewrite print_app.
    eapply (lift_bin _ _ _ _ _ e1 (isint e1) TImp (print e2 ++ rest) e2 (isint e2) rest); [apply disjunction_shrink, reader_shrink| |reflexivity|].
    + apply IHe1; auto. split; [simpl; lia|rewrite HO; discriminate].
    + apply disjunction_done; auto. apply IHe2; auto.
  - destruct HC as (H1 & H2 & F1 & F2 & HO). destruct HI as (N2 & I1 & I2). apply rank_fit in F2; auto.
    assert (R1 : rank e1 <= 10) by (destruct e1; simpl in *; auto; try lia; destruct op; lia).
    apply from10; auto. intros rest _ Hs; simpl; rewrite print_app.
    eapply (lift_bin _ _ _ _ _ e1 (isint e1) TIff (print e2 ++ rest) e2 (isint e2) rest); [apply implication_shrink, reader_shrink| |reflexivity|].
    + apply IHe1; auto. split; [simpl; lia|rewrite HO; discriminate].
    + apply implication_done; auto. apply IHe2; auto.
  - (* xor *) destruct HC as (H1 & H2 & F1 & F2 & HN). destruct HI as (I1 & I2).
    apply from5; auto; try (intros rest H; simpl in H; lia). intros rest _ Hs; simpl; rewrite print_app.
    unfold comparison. rewrite sum_done by (try apply IHe1; auto; simpl; lia).
    rewrite sum_done by (try apply IHe2; auto; eapply tstop_le; eauto). simpl; rewrite HN; reflexivity.
  - (* comparison *) destruct HC as (H1 & H2 & F1 & F2 & HN). destruct HI as (I1 & I2).
    apply from5; auto; try (intros rest H; simpl in H; lia). intros rest _ Hs; simpl; rewrite print_app.
    unfold comparison. rewrite sum_done by (try apply IHe1; auto; simpl; lia).
    rewrite sum_done by (try apply IHe2; auto; eapply tstop_le; eauto). destruct c; simpl; rewrite ?HN; reflexivity.
  - (* quantifier *) destruct HC as (H1 & H2 & H3). destruct HI as (I1 & I2). apply from6; auto.
    + intros rest _ [_ Hs]. unfold chainless. rewrite quantify_done; auto.
    + intros rest Hs. unfold expression. rewrite quantify_done; auto.
  - destruct HC as [HC Hr]. destruct (IHe HC HI) as (_ & K1 & _). apply from2; auto. intros rest _ Hs; simpl. rewrite K1; auto.
  - destruct HC as (H1 & H2 & HB). destruct HI as (I1 & I2). specialize (IHe1 H1 I1); specialize (IHe2 H2 I2).
    pose proof IHe1 as (A0 & A1 & A2 & A3 & A4 & _). pose proof IHe2 as (B0 & B1 & B2 & B3 & B4 & _).
    destruct op; simpl in HB.
    1,2: apply from4; [auto|reflexivity|]; intros rest _ Hs; simpl; rewrite print_app;
      eapply (lift_bin _ _ _ _ _ e1 (isint e1) _ (print e2 ++ rest) e2 (isint e2) rest); [apply product_shrink, reader_shrink|apply A4; simpl; lia|reflexivity|];
      apply product_done; tauto.
    1,2,3: apply from3; [auto|reflexivity|]; intros rest _ Hs; simpl; rewrite print_app;
      eapply (lift_bin _ _ _ _ _ e1 (isint e1) _ (print e2 ++ rest) e2 (isint e2) rest); [apply neg_shrink, reader_shrink|apply A3; simpl; lia|reflexivity|];
      apply B2; [tauto|eapply tstop_le; eauto].
    + apply from1; [auto|simpl; lia|intros rest H; simpl in H; lia|].
      intros rest _ Hs. unfold power. simpl. rewrite print_app.
      erewrite (lift_bin _ _ _ _ _ e1 (isint e1) TPow (print e2 ++ rest) e2 (isint e2) rest); [| | |reflexivity|].
      * stops Hs.
      * apply reader_shrink.
      * apply lift_low. apply A0; simpl; lia.
      * rewrite reader_neg. apply B2; [tauto|auto].
    + apply from0; auto. intros rest _ Hs; simpl. rewrite print_app, <- app_assoc; simpl.
      rewrite sum_done' by (simpl; auto; try tauto; lia). rewrite sum_done' by (simpl; auto; try tauto; lia). reflexivity.
    + apply from0; auto. intros rest _ Hs; simpl. rewrite print_app, <- app_assoc; simpl.
      rewrite sum_done' by (simpl; auto; try tauto; lia). rewrite sum_done' by (simpl; auto; try tauto; lia). reflexivity.
  - (* if *) destruct HC as (H1 & H2 & H3 & F2 & F3). destruct HI as (I1 & I2 & I3).
    unfold all_read; repeat split; try (intros rest H; simpl in H; lia).
    intros rest Hs. unfold expression. simpl. rewrite print_app, print_app.
    rewrite expr_done by (auto; simpl; lia). rewrite expr_done by (auto; simpl; lia). rewrite expr_done by auto.
    rewrite F2, F3; reflexivity.
  - (* x[i] *) apply from0; auto. intros rest _ Hs; simpl. rewrite <- app_assoc; simpl.
    rewrite expr_done; auto; simpl; lia.
Qed.

Lemma read_back : forall e rest, raw preds e -> iffs_apart e -> tstop 10 rest -> RD RExpr (print e ++ rest) = Some (e, isint e, rest).
Proof. intros e rest H1 H2 H3. apply expr_done; auto. apply read_all; auto. Qed.
End Expr.
