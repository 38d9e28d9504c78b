(** Whatever is read fits the grammar as [raw] has it. *)
From Coq Require Import String List Arith Bool ZArith Lia.
From Verif Require Import FmlaModel IntModel ExprModel ActModel NetModel CmdModel ParseModel ParseSpec ParseProofs ParseProofs2.
Import ListNotations.
Local Open Scope list_scope.

Lemma chain_inv : forall op flag sub (I : sexp -> bool -> list tok -> Prop) k, shrink sub ->
  (forall a i t r' c b j r'', I a i (t :: r') -> S (length r') <= k -> op t = Some c -> sub r' = Some (b, j, r'') -> I (c a b) flag r'') ->
  forall n a i ts e i' r, length ts <= n -> length ts <= k -> I a i ts -> chain op flag sub n a i ts = Some (e, i', r) ->
  I e i' r /\ forall t r' c, r = t :: r' -> op t = Some c -> sub r' = None.
Proof.
  intros op flag sub I k HS HI; induction n; simpl; intros a i ts e i' r Hn Hk H0 H.
  - inv H. destruct ts; [|simpl in Hn; lia]. split; auto. discriminate.
  - destruct ts as [|t ts]; [inv H; split; auto; discriminate|].
    destruct (op t) as [c|] eqn:Et; [|inv H; split; auto; intros t' r' c' E E'; injection E as -> ->; congruence].
    destruct (sub ts) as [[[b j] r1]|] eqn:E; [|inv H; split; auto; intros t' r' c' E1 E'; injection E1 as -> ->; exact E].
    pose proof (HS _ _ _ _ E). simpl in Hn, Hk. eapply IHn in H; eauto; lia.
Qed.
Lemma chained_inv : forall op flag p sub (I : sexp -> bool -> list tok -> Prop) k, shrink sub -> shrink p ->
  (forall a i t r' c b j r'', I a i (t :: r') -> S (length r') <= k -> op t = Some c -> sub r' = Some (b, j, r'') -> I (c a b) flag r'') ->
  forall ts e i r, length ts <= k -> (forall a i r, p ts = Some (a, i, r) -> I a i r) -> chained op flag p sub ts = Some (e, i, r) ->
  I e i r /\ forall t r' c, r = t :: r' -> op t = Some c -> sub r' = None.
Proof.
  intros op flag p sub I k HS HP HI ts e i r Hk H0 H. unfold chained in H.
  destruct (p ts) as [[[a j] r0]|] eqn:E; [|discriminate]. pose proof (HP _ _ _ _ E).
  eapply chain_inv in H; eauto; lia.
Qed.

(** Constants *)
Definition cpstop (r : list tok) : Prop := forall r', r = TPow :: r' -> creader RNeg r' = None.
Definition cgood (l : rule) (e : sexp) (i : bool) (r : list tok) : Prop :=
  craw e /\ i = true /\ match l with RNeg => rank e <= 2 /\ cpstop r | _ => rank e <= 4 end.
Section Const.
Variable k : nat.
Hypothesis IH : forall l ts, length ts < k -> forall e i r, creader l ts = Some (e, i, r) -> cgood l e i r.
Lemma cvalue_good : forall ts e i r, length ts <= k -> cvalue creader ts = Some (e, i, r) -> craw e /\ i = true /\ rank e <= 0.
Proof.
  intros ts e i r Hk H; unfold cvalue in H. destruct ts as [|t ts]; [discriminate|]. simpl in Hk.
  destruct t; try discriminate; try (inv H; simpl; auto).
  destruct (creader RSum ts) as [[[a j] r1]|] eqn:E; [|discriminate]. destruct r1 as [|t r1]; [discriminate|]. destruct t; try discriminate.
  inv H. apply IH in E; [|lia]. destruct E as (H1 & H2 & H3). simpl; auto.
Qed.
Lemma fun_op_rank : forall x op a b, fun_op x = Some op -> rank (SBin op a b) = 0 /\ (bin_fit op a b = (rank a <= 4 /\ rank b <= 4)).
Proof. intros x op a b H; unfold fun_op in H. destruct (String.eqb x "max"); [injection H as <-; auto|]. destruct (String.eqb x "min"); [injection H as <-; auto|discriminate]. Qed.
Lemma cfuncall_good : forall ts e i r, length ts <= k -> cfuncall creader ts = Some (e, i, r) -> craw e /\ i = true /\ rank e <= 0.
Proof.
  intros ts e i r Hk H; unfold cfuncall in H.
  repeat match type of H with
  | cvalue creader _ = _ => apply cvalue_good in H; [exact H|exact Hk]
  | context [match ?x with _ => _ end] => destruct x eqn:?; subst
  end.
  inv H. simpl in Hk. pose proof (creader_shrink RSum _ _ _ _ Heqo0) as L; simpl in L.
  apply IH in Heqo0; [|lia]. apply IH in Heqo1; [|lia].
  destruct Heqo0 as (H1 & H2 & H3). destruct Heqo1 as (H4 & H5 & H6).
  destruct (fun_op_rank _ _ s s0 Heqo) as [E1 E2]. cbn [craw]. rewrite E1, E2. auto.
Qed.
Lemma cpower_good : forall ts e i r, length ts <= k -> cpower creader ts = Some (e, i, r) -> craw e /\ i = true /\ rank e <= 1 /\ cpstop r.
Proof.
  intros ts e i r Hk H; unfold cpower, chained in H.
  destruct (cfuncall creader ts) as [[[a j] r0]|] eqn:E; [|discriminate].
  pose proof (cfuncall_shrink _ creader_shrink _ _ _ _ E) as L. apply cfuncall_good in E; auto. destruct E as (H1 & -> & H3).
  destruct r0 as [|t r0]; [inv H; repeat split; auto; try lia; discriminate|].
  destruct t; try (simpl in H; inv H; repeat split; auto; try lia; discriminate).
  simpl in H. destruct (creader RNeg r0) as [[[b jb] r1]|] eqn:E.
  - simpl in L. pose proof (creader_shrink _ _ _ _ _ E) as L1. apply IH in E; [|lia]. destruct E as (G1 & G2 & G3 & G4).
    assert (S : chain pow_op true (creader RNeg) (length r0) (SBin PowOp a b) true r1 = Some (SBin PowOp a b, true, r1)).
    { destruct (length r0); [reflexivity|]. destruct r1 as [|t r1]; [reflexivity|]. destruct t; try reflexivity. simpl. rewrite (G4 _ eq_refl). reflexivity. }
    rewrite S in H. inv H. simpl; repeat split; auto; lia.
  - inv H. repeat split; auto; try lia. intros r' E'; injection E' as <-; exact E.
Qed.
Lemma cneg_good : forall ts e i r, length ts <= k -> cneg creader ts = Some (e, i, r) -> cgood RNeg e i r.
Proof.
  intros ts e i r Hk H; unfold cneg in H.
  assert (D : forall ts, length ts <= k -> cpower creader ts = Some (e, i, r) -> cgood RNeg e i r).
  { intros ts' Hk' H'. apply cpower_good in H'; auto. destruct H' as (H1 & H2 & H3 & H4). repeat split; auto; lia. }
  destruct ts as [|t ts]; [eauto|]. destruct t; eauto.
  destruct (cpower creader ts) as [[[a j] r']|] eqn:E; [|discriminate]. inv H. simpl in Hk.
  apply cpower_good in E; [|lia]. destruct E as (H1 & H2 & H3 & H4). repeat split; simpl; auto; lia.
Qed.
Lemma cproduct_good : forall ts e i r, length ts <= k -> cproduct creader ts = Some (e, i, r) -> craw e /\ i = true /\ rank e <= 3.
Proof.
  intros ts e i r Hk H. eapply (chained_inv _ _ _ _ (fun e i r => craw e /\ i = true /\ rank e <= 3) k) in H; auto.
  - tauto.
  - apply cneg_shrink, creader_shrink.
  - apply cneg_shrink, creader_shrink.
  - intros a j t r' c b jb r'' (A1 & A2 & A3) L Ht Hb. apply cneg_good in Hb; [|lia]. destruct Hb as (B1 & B2 & B3 & B4).
    destruct t; try discriminate Ht; injection Ht as <-; simpl; repeat split; auto; lia.
  - intros a j r0 H0. apply cneg_good in H0; auto. destruct H0 as (B1 & B2 & B3 & B4). repeat split; auto; lia.
Qed.
Lemma csum_good : forall ts e i r, length ts <= k -> csum creader ts = Some (e, i, r) -> craw e /\ i = true /\ rank e <= 4.
Proof.
  intros ts e i r Hk H. eapply (chained_inv _ _ _ _ (fun e i r => craw e /\ i = true /\ rank e <= 4) k) in H; auto.
  - tauto.
  - apply cproduct_shrink, creader_shrink.
  - apply cproduct_shrink, creader_shrink.
  - intros a j t r' c b jb r'' (A1 & A2 & A3) L Ht Hb. apply cproduct_good in Hb; [|lia]. destruct Hb as (B1 & B2 & B3).
    destruct t; try discriminate Ht; injection Ht as <-; simpl; repeat split; auto; lia.
  - intros a j r0 H0. apply cproduct_good in H0; auto. destruct H0 as (B1 & B2 & B3). repeat split; auto; lia.
Qed.
End Const.
Lemma creader_good : forall k l ts, length ts < k -> forall e i r, creader l ts = Some (e, i, r) -> cgood l e i r.
Proof.
  induction k; intros l ts Hk e i r H; [lia|].
  assert (HS : length ts <= k) by lia.
  destruct l; rewrite ?creader_sum, ?creader_neg in H.
  - apply (csum_good k IHk _ _ _ _ HS H).
  - apply (cneg_good k IHk _ _ _ _ HS H).
  - change (creader RExpr ts) with (creader RSum ts) in H. rewrite creader_sum in H. apply (csum_good k IHk _ _ _ _ HS H).
Qed.
Lemma const_expr_good : forall ts e i r, const_expr ts = Some (e, i, r) -> craw e /\ rank e <= 4.
Proof. intros ts e i r H. rewrite const_expr_eq in H. apply (csum_good (length ts) (creader_good _)) in H; auto; tauto. Qed.
Lemma const_value_good : forall ts e i r, const_value ts = Some (e, i, r) -> craw e /\ rank e <= 4.
Proof.
  intros ts e i r H. rewrite const_value_eq in H. apply (cvalue_good (length ts) (creader_good _)) in H; auto.
  destruct H as (H1 & H2 & H3); split; auto; lia.
Qed.
Lemma in_nat_dom_good : forall ts n r, in_nat_dom ts = Some (n, r) -> craw n /\ rank n <= 4.
Proof.
  intros ts n r H; unfold in_nat_dom in H. cases H; injection H as <- <-; eauto using const_expr_good, const_value_good.
Qed.

Lemma fit_le : forall e j k, fit j e -> j <= k -> fit k e.
Proof. intros e j k H L; destruct e; simpl in *; lia. Qed.
Lemma fit_rank : forall e k, rank e <= k -> fit k e.
Proof. intros e k H; destruct e; simpl in *; auto. Qed.
Lemma fit5_open : forall e, fit 5 e -> open e = false.
Proof. intros e H; destruct e; simpl in *; auto; try lia. destruct H as [H|(_ & _ & H)]; [lia|]. apply rank_open; lia. Qed.

Section Expr.
Variable preds : list string.
Notation RD := (reader preds).
Definition halted (j : nat) (r : list tok) : Prop := forall t r', r = t :: r' ->
  match t with
  | TAnd => 7 <= j -> chainless preds RD r' = None
  | TOr => 8 <= j -> conjunction preds RD r' = None
  | TImp => 9 <= j -> disjunction preds RD r' = None
  | TIff => 10 <= j -> implication preds RD r' = None
  | _ => True
  end.
Definition pstop (r : list tok) : Prop := forall r', r = TPow :: r' -> RD RNeg r' = None.
Definition fine (l : rule) (e : sexp) (i : bool) (r : list tok) : Prop :=
  raw preds e /\ i = isint e /\ match l with RSum => rank e <= 4 | RNeg => rank e <= 2 /\ pstop r | RExpr => halted 10 r end.
Section Rules.
Variable k : nat.
Hypothesis IH : forall l ts, length ts < k -> forall e i r, RD l ts = Some (e, i, r) -> fine l e i r.
Lemma value_fine : forall ts e i r, length ts <= k -> value RD ts = Some (e, i, r) -> raw preds e /\ i = isint e /\ rank e <= 0.
Proof.
  intros ts e i r Hk H; unfold value in H. destruct ts as [|t ts]; [discriminate|]. simpl in Hk.
  destruct t; try discriminate; [|inv H; simpl; auto|].
  - assert (D : forall r', Some (SName x, true, r') = Some (e, i, r) -> raw preds e /\ i = isint e /\ rank e <= 0)
      by (intros r' E; inv E; simpl; auto).
    destruct ts as [|t ts]; [eauto|]. destruct t; eauto.
    destruct (RD RExpr ts) as [[[b j] r1]|] eqn:E; eauto. destruct r1 as [|t r1]; eauto. destruct t; eauto.
    inv H. simpl in Hk. apply IH in E; [|lia]. destruct E as (E & _). simpl; auto.
  - destruct (RD RExpr ts) as [[[a j] r1]|] eqn:E; [|discriminate]. destruct r1 as [|t r1]; [discriminate|]. destruct t; try discriminate.
    inv H. apply IH in E; [|lia]. destruct E as (H1 & H2 & H3). destruct j; simpl; auto.
Qed.
Lemma funcall_fine : forall ts e i r, length ts <= k -> funcall RD ts = Some (e, i, r) -> raw preds e /\ i = isint e /\ rank e <= 0.
Proof.
  intros ts e i r Hk H; unfold funcall in H.
  repeat match type of H with
  | value (reader _) _ = _ => apply value_fine in H; [exact H|exact Hk]
  | context [match ?x with _ => _ end] => destruct x eqn:?; subst
  end.
  inv H. simpl in Hk. pose proof (reader_shrink _ RSum _ _ _ _ Heqo0) as L; simpl in L.
  apply IH in Heqo0; [|lia]. apply IH in Heqo1; [|lia].
  destruct Heqo0 as (H1 & H2 & H3). destruct Heqo1 as (H4 & H5 & H6).
  destruct (fun_op_rank _ _ s s0 Heqo) as [E1 E2]. cbn [raw]. rewrite E1, E2. auto.
Qed.
Lemma power_fine : forall ts e i r, length ts <= k -> power RD ts = Some (e, i, r) -> raw preds e /\ i = isint e /\ rank e <= 1 /\ pstop r.
Proof.
  intros ts e i r Hk H; unfold power, chained in H.
  destruct (funcall RD ts) as [[[a j] r0]|] eqn:E; [|discriminate].
  pose proof (funcall_shrink _ (reader_shrink preds) _ _ _ _ E) as L. apply funcall_fine in E; auto. destruct E as (H1 & H2 & H3).
  destruct r0 as [|t r0]; [inv H; repeat split; auto; try lia; discriminate|].
  destruct t; try (simpl in H; inv H; repeat split; auto; try lia; discriminate).
  simpl in H. destruct (RD RNeg r0) as [[[b jb] r1]|] eqn:E.
  - simpl in L. pose proof (reader_shrink _ _ _ _ _ _ E) as L1. apply IH in E; [|lia]. destruct E as (G1 & G2 & G3 & G4).
    assert (S : chain pow_op true (RD RNeg) (length r0) (SBin PowOp a b) true r1 = Some (SBin PowOp a b, true, r1)).
    { destruct (length r0); [reflexivity|]. destruct r1 as [|t r1]; [reflexivity|]. destruct t; try reflexivity. simpl. rewrite (G4 _ eq_refl). reflexivity. }
    rewrite S in H. inv H. simpl; repeat split; auto; lia.
  - inv H. repeat split; auto; try lia. intros r' E'; injection E' as <-; exact E.
Qed.
Lemma neg_fine : forall ts e i r, length ts <= k -> neg RD ts = Some (e, i, r) -> fine RNeg e i r.
Proof.
  intros ts e i r Hk H; unfold neg in H.
  assert (D : forall ts, length ts <= k -> power RD ts = Some (e, i, r) -> fine RNeg e i r).
  { intros ts' Hk' H'. apply power_fine in H'; auto. destruct H' as (H1 & H2 & H3 & H4). repeat split; auto; lia. }
  destruct ts as [|t ts]; [eauto|]. destruct t; eauto;
  (destruct (power RD ts) as [[[a j] r']|] eqn:E; [|discriminate]; inv H; simpl in Hk;
   apply power_fine in E; [|lia]; destruct E as (H1 & H2 & H3 & H4); repeat split; simpl; auto; lia).
Qed.
Lemma product_fine : forall ts e i r, length ts <= k -> product RD ts = Some (e, i, r) -> raw preds e /\ i = isint e /\ rank e <= 3.
Proof.
  intros ts e i r Hk H. eapply (chained_inv _ _ _ _ (fun e i r => raw preds e /\ i = isint e /\ rank e <= 3) k) in H; auto.
  - tauto.
  - apply neg_shrink, reader_shrink.
  - apply neg_shrink, reader_shrink.
  - intros a j t r' c b jb r'' (A1 & A2 & A3) L Ht Hb. apply neg_fine in Hb; [|lia]. destruct Hb as (B1 & B2 & B3 & B4).
    destruct t; try discriminate Ht; injection Ht as <-; simpl; repeat split; auto; lia.
  - intros a j r0 H0. apply neg_fine in H0; auto. destruct H0 as (B1 & B2 & B3 & B4). repeat split; auto; lia.
Qed.
Lemma sum_fine : forall ts e i r, length ts <= k -> sum RD ts = Some (e, i, r) -> raw preds e /\ i = isint e /\ rank e <= 4.
Proof.
  intros ts e i r Hk H. eapply (chained_inv _ _ _ _ (fun e i r => raw preds e /\ i = isint e /\ rank e <= 4) k) in H; auto.
  - tauto.
  - apply product_shrink, reader_shrink.
  - apply product_shrink, reader_shrink.
  - intros a j t r' c b jb r'' (A1 & A2 & A3) L Ht Hb. apply product_fine in Hb; [|lia]. destruct Hb as (B1 & B2 & B3).
    destruct t; try discriminate Ht; injection Ht as <-; simpl; repeat split; auto; lia.
  - intros a j r0 H0. apply product_fine in H0; auto. destruct H0 as (B1 & B2 & B3). repeat split; auto; lia.
Qed.
Lemma comparison_fine : forall ts e i r, length ts <= k -> comparison preds RD ts = Some (e, i, r) ->
  raw preds e /\ i = isint e /\ fit 5 e.
Proof.
  intros ts e i r Hk H; unfold comparison in H. destruct (sum RD ts) as [[[a j] r0]|] eqn:E; [|discriminate].
  pose proof (sum_shrink _ (reader_shrink preds) _ _ _ _ E) as L.
  apply sum_fine in E; auto. destruct E as (H1 & H2 & H3).
  assert (D : forall r0, Some (a, j, r0) = Some (e, i, r) -> raw preds e /\ i = isint e /\ fit 5 e).
  { intros r1 E; inv E. repeat split; auto. apply fit_rank; lia. }
  destruct r0 as [|t r0]; [eauto|]. destruct t; eauto.
  destruct (sum RD r0) as [[[b jb] r1]|] eqn:E; [|eauto]. simpl in L. apply sum_fine in E; [|lia].
  destruct E as (G1 & G2 & G3). inv H. subst j jb.
  destruct c; simpl; auto 10; destruct (not_int preds a (isint a) (isint b)) eqn:EN; simpl; repeat split; auto; try (apply fit_rank; lia);
  apply rank_open; lia.
Qed.
Lemma quantify_fine : forall ts e i r, length ts <= k -> quantify RD ts = Some (e, i, r) ->
  raw preds e /\ i = isint e /\ fit 6 e /\ halted 10 r.
Proof.
  intros ts e i r Hk H; unfold quantify in H. destruct ts as [|t ts]; [discriminate|]. destruct t; try discriminate.
  destruct ts as [|t ts]; [discriminate|]. destruct t; try discriminate.
  destruct (in_nat_dom ts) as [[n r0]|] eqn:E; [|discriminate]. destruct r0 as [|t r0]; [discriminate|]. destruct t; try discriminate.
  destruct (RD RExpr r0) as [[[c j] r1]|] eqn:E1; [|discriminate]. inv H.
  pose proof (in_nat_dom_shrink _ _ _ E) as L. apply in_nat_dom_good in E. simpl in *. apply IH in E1; [|lia].
  destruct E1 as (H1 & H2 & H3). destruct E. auto 10.
Qed.
Lemma if_fine : forall ts e i r, length ts <= k -> if_then_else RD ts = Some (e, i, r) -> raw preds e /\ i = isint e /\ halted 10 r.
Proof.
  intros ts e i r Hk H; unfold if_then_else in H. destruct ts as [|t ts]; [discriminate|]. destruct t; try discriminate. simpl in Hk.
  destruct (RD RExpr ts) as [[[a j] r1]|] eqn:E1; [|discriminate]. destruct r1 as [|t r1]; [discriminate|]. destruct t; try discriminate.
  destruct (RD RExpr r1) as [[[b jb] r2]|] eqn:E2; [|discriminate]. destruct r2 as [|t r2]; [discriminate|]. destruct t; try discriminate.
  destruct (RD RExpr r2) as [[[c jc] r3]|] eqn:E3; [|discriminate]. destruct jb; [|discriminate]. destruct jc; [|discriminate]. inv H.
  pose proof (reader_shrink _ _ _ _ _ _ E1); pose proof (reader_shrink _ _ _ _ _ _ E2); simpl in *.
  apply IH in E1; [|lia]. apply IH in E2; [|lia]. apply IH in E3; [|lia].
  destruct E1 as (A1 & A2 & A3), E2 as (B1 & B2 & B3), E3 as (C1 & C2 & C3). simpl. auto 10.
Qed.
Lemma chainless_fine : forall ts e i r, length ts <= k -> chainless preds RD ts = Some (e, i, r) ->
  raw preds e /\ i = isint e /\ fit 6 e /\ (open e = true -> halted 10 r).
Proof.
  intros ts e i r Hk H; unfold chainless in H. destruct (quantify RD ts) as [x|] eqn:E.
  - injection H as ->. apply quantify_fine in E; auto. tauto.
  - apply comparison_fine in H; auto. destruct H as (H1 & H2 & H3). repeat split; auto; [eapply fit_le; eauto|].
    rewrite fit5_open; auto; discriminate.
Qed.
Definition loose (j : nat) (e : sexp) (i : bool) (r : list tok) : Prop :=
  raw preds e /\ i = isint e /\ fit j e /\ (open e = true -> halted 10 r) /\ halted (j - 1) r.
Definition loose' (j : nat) (e : sexp) (i : bool) (r : list tok) : Prop :=
  raw preds e /\ i = isint e /\ fit j e /\ (open e = true -> halted 10 r) /\ halted j r.
Lemma halted6 : forall r, halted 6 r.
Proof. intros r t r' ->; destruct t; auto; lia. Qed.
Lemma loose_up : forall j e i r, loose' j e i r -> loose (S j) e i r.
Proof. intros j e i r (H1 & H2 & H3 & H4 & H5). repeat split; auto; [eapply fit_le; eauto|]. simpl; rewrite Nat.sub_0_r; auto. Qed.
Lemma conjunction_fine : forall ts e i r, length ts <= k -> conjunction preds RD ts = Some (e, i, r) -> loose' 7 e i r.
Proof.
  intros ts e i r Hk H. eapply (chained_inv _ _ _ _ (loose 7) k) in H; auto.
  - destruct H as [(H1 & H2 & H3 & H4 & H5) HT]. repeat split; auto. intros t r' ->.
    destruct t; auto; try (intros; lia). intros _; eapply HT; reflexivity.
  - apply chainless_shrink, reader_shrink.
  - apply chainless_shrink, reader_shrink.
  - intros a j t r' c b jb r'' (A1 & A2 & A3 & A4 & A5) L Ht Hb. pose proof Hb as Hb0. apply chainless_fine in Hb; [|lia].
    destruct Hb as (B1 & B2 & B3 & B4). destruct t; try discriminate Ht; injection Ht as <-.
    assert (open a = false). { destruct (open a); auto. specialize (A4 eq_refl TAnd r' eq_refl ltac:(lia)). congruence. }
    repeat split; simpl; auto. apply halted6.
  - intros a j r0 H0. apply chainless_fine in H0; auto. destruct H0 as (B1 & B2 & B3 & B4). repeat split; auto; [eapply fit_le; eauto|]. apply halted6.
Qed.
Lemma disjunction_fine : forall ts e i r, length ts <= k -> disjunction preds RD ts = Some (e, i, r) -> loose' 8 e i r.
Proof.
  intros ts e i r Hk H. eapply (chained_inv _ _ _ _ (loose 8) k) in H; auto.
  - destruct H as [(H1 & H2 & H3 & H4 & H5) HT]. repeat split; auto. intros t r' ->. specialize (H5 t r' eq_refl).
    destruct t; auto; try (intros; lia). intros _; eapply HT; reflexivity.
  - apply conjunction_shrink, reader_shrink.
  - apply conjunction_shrink, reader_shrink.
  - intros a j t r' c b jb r'' (A1 & A2 & A3 & A4 & A5) L Ht Hb. pose proof Hb as Hb0. apply conjunction_fine in Hb; [|lia].
    destruct Hb as (B1 & B2 & B3 & B4 & B5). destruct t; try discriminate Ht; injection Ht as <-.
    assert (open a = false). { destruct (open a); auto. specialize (A4 eq_refl TOr r' eq_refl ltac:(lia)). congruence. }
    repeat split; simpl; auto.
  - intros a j r0 H0. apply loose_up, conjunction_fine with (ts := ts); auto.
Qed.
Lemma implication_fine : forall ts e i r, length ts <= k -> implication preds RD ts = Some (e, i, r) -> loose' 9 e i r.
Proof.
  intros ts e i r Hk H. eapply (chained_inv _ _ _ _ (loose 9) k) in H; auto.
  - destruct H as [(H1 & H2 & H3 & H4 & H5) HT]. repeat split; auto. intros t r' ->. specialize (H5 t r' eq_refl).
    destruct t; auto; try (intros; lia); intros _; try (apply H5; lia). eapply HT; reflexivity.
  - apply disjunction_shrink, reader_shrink.
  - apply disjunction_shrink, reader_shrink.
  - intros a j t r' c b jb r'' (A1 & A2 & A3 & A4 & A5) L Ht Hb. pose proof Hb as Hb0. apply disjunction_fine in Hb; [|lia].
    destruct Hb as (B1 & B2 & B3 & B4 & B5). destruct t; try discriminate Ht; injection Ht as <-.
    assert (open a = false). { destruct (open a); auto. specialize (A4 eq_refl TImp r' eq_refl ltac:(lia)). congruence. }
    repeat split; simpl; auto.
  - intros a j r0 H0. apply loose_up, disjunction_fine with (ts := ts); auto.
Qed.
Lemma biimplication_fine : forall ts e i r, length ts <= k -> biimplication preds RD ts = Some (e, i, r) -> loose' 10 e i r.
Proof.
  intros ts e i r Hk H. eapply (chained_inv _ _ _ _ (loose 10) k) in H; auto.
  - destruct H as [(H1 & H2 & H3 & H4 & H5) HT]. repeat split; auto. intros t r' ->. specialize (H5 t r' eq_refl).
    destruct t; auto; intros _; try (apply H5; lia). eapply HT; reflexivity.
  - apply implication_shrink, reader_shrink.
  - apply implication_shrink, reader_shrink.
  - intros a j t r' c b jb r'' (A1 & A2 & A3 & A4 & A5) L Ht Hb. pose proof Hb as Hb0. apply implication_fine in Hb; [|lia].
    destruct Hb as (B1 & B2 & B3 & B4 & B5). destruct t; try discriminate Ht; injection Ht as <-.
    assert (open a = false). { destruct (open a); auto. specialize (A4 eq_refl TIff r' eq_refl ltac:(lia)). congruence. }
    repeat split; simpl; auto.
  - intros a j r0 H0. apply loose_up, implication_fine with (ts := ts); auto.
Qed.
Lemma expression_fine : forall ts e i r, length ts <= k -> expression preds RD ts = Some (e, i, r) -> fine RExpr e i r.
Proof.
  intros ts e i r Hk H; unfold expression in H. destruct (quantify RD ts) as [x|] eqn:E.
  - injection H as ->. apply quantify_fine in E; auto. unfold fine; tauto.
  - destruct (if_then_else RD ts) as [x|] eqn:E1.
    + injection H as ->. apply if_fine in E1; auto.
    + apply biimplication_fine in H; auto. destruct H as (H1 & H2 & H3 & H4 & H5). repeat split; auto.
Qed.
End Rules.
Lemma reader_fine : forall k l ts, length ts < k -> forall e i r, RD l ts = Some (e, i, r) -> fine l e i r.
Proof.
  induction k; intros l ts Hk e i r H; [lia|]. assert (HS : length ts <= k) by lia.
  destruct l; rewrite ?reader_sum, ?reader_neg, ?reader_expr in H.
  - apply (sum_fine k IHk _ _ _ _ HS H).
  - apply (neg_fine k IHk _ _ _ _ HS H).
  - apply (expression_fine k IHk _ _ _ _ HS H).
Qed.
Lemma read_raw : forall ts e r, take_expr preds ts = Some (e, r) -> raw preds e.
Proof.
  intros ts e r H. unfold take_expr in H. fold (RD RExpr ts) in H. destruct (RD RExpr ts) as [[[a i] r0]|] eqn:E; [|discriminate].
  injection H as <- <-. apply (reader_fine (S (length ts))) in E; [|lia]. apply E.
Qed.
Lemma take_back : forall e rest, raw preds e -> iffs_apart e -> tstop 10 rest -> take_expr preds (print e ++ rest) = Some (e, rest).
Proof. intros e rest H1 H2 H3. unfold take_expr. fold (RD RExpr (print e ++ rest)). rewrite read_back; auto. Qed.
Lemma read_expr_take : forall ts e, read_expr preds ts = Some e <-> take_expr preds ts = Some (e, []).
Proof.
  intros ts e. unfold read_expr, take_expr. destruct (read_rule preds (S (length ts)) RExpr ts) as [[[a i] [|t r]]|]; split; intros H; try discriminate;
  injection H as <-; reflexivity.
Qed.
End Expr.
