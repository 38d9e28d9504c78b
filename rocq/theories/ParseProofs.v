(** The fuel of the reader does not matter: [reader] satisfies the rules of the grammar. *)
From Coq Require Import String List Arith Bool ZArith Lia.
From Verif Require Import FmlaModel IntModel ExprModel ActModel NetModel CmdModel ParseModel.
Import ListNotations.
Local Open Scope list_scope.

Definition shrink (p : parser) : Prop := forall ts e i r, p ts = Some (e, i, r) -> length r < length ts.
Definition shrinkR (R : rule -> parser) : Prop := forall l, shrink (R l).
Definition same (k : nat) (p q : parser) : Prop := forall ts, length ts <= k -> p ts = q ts.
Definition sameR (k : nat) (R R' : rule -> parser) : Prop := forall l ts, length ts < k -> R l ts = R' l ts.

Lemma chain_le : forall op flag sub, shrink sub -> forall n a i ts e j r,
  chain op flag sub n a i ts = Some (e, j, r) -> length r <= length ts.
Proof.
  intros op flag sub HS; induction n; simpl; intros a i ts e j r H; [injection H as <- <- <-; lia|].
  destruct ts as [|t ts]; [injection H as <- <- <-; simpl; lia|].
  destruct (op t); [|injection H as <- <- <-; simpl; lia].
  destruct (sub ts) as [[[b jb] r']|] eqn:E; [|injection H as <- <- <-; simpl; lia].
  apply IHn in H; apply HS in E; simpl; lia.
Qed.
Lemma chain_fuel : forall op flag sub, shrink sub -> forall n m a i ts, length ts <= n -> length ts <= m ->
  chain op flag sub n a i ts = chain op flag sub m a i ts.
Proof.
  intros op flag sub HS; induction n; intros m a i ts Hn Hm.
  - destruct ts; [|simpl in Hn; lia]. destruct m; reflexivity.
  - destruct ts as [|t ts]; [destruct m; reflexivity|].
    destruct m; [simpl in Hm; lia|]. simpl.
    destruct (op t); [|reflexivity]. destruct (sub ts) as [[[b jb] r']|] eqn:E; [|reflexivity].
    apply HS in E; simpl in *; apply IHn; lia.
Qed.
Lemma chain_same : forall op flag p q k, same k p q -> shrink p -> forall n a i ts, length ts <= k ->
  chain op flag p n a i ts = chain op flag q n a i ts.
Proof.
  intros op flag p q k HE HS; induction n; intros a i ts Hk; [reflexivity|]; simpl.
  destruct ts as [|t ts]; [reflexivity|]. simpl in Hk.
  destruct (op t); [|reflexivity]. rewrite <- (HE ts) by lia.
  destruct (p ts) as [[[b jb] r']|] eqn:E; [|reflexivity].
  apply HS in E; apply IHn; lia.
Qed.
Lemma chained_shrink : forall op flag p q, shrink p -> shrink q -> shrink (chained op flag p q).
Proof.
  intros op flag p q Hp Hq ts e i r H; unfold chained in H.
  destruct (p ts) as [[[a j] r0]|] eqn:E; [|discriminate].
  apply Hp in E; apply chain_le in H; auto; lia.
Qed.
Lemma chained_same : forall op flag p q p' q' k, same k p p' -> same k q q' -> shrink p -> shrink q ->
  same k (chained op flag p q) (chained op flag p' q').
Proof.
  intros op flag p q p' q' k Hp Hq Sp Sq ts Hk; unfold chained. rewrite <- (Hp ts Hk).
  destruct (p ts) as [[[a j] r0]|] eqn:E; [|reflexivity].
  apply Sp in E; apply (chain_same _ _ _ _ k); auto; lia.
Qed.

Ltac inv H := injection H as <- <- <-.
(** Take apart a reader that matches on the results of others. *)
Ltac cases H :=
  repeat match type of H with
  | None = Some _ => discriminate H
  | context [match ?x with _ => _ end] => destruct x eqn:?; subst; try discriminate H
  end.
Ltac sizes R :=
  repeat match goal with
  | E : ?p ?ts = Some (_, _, _), S : shrinkR ?p' |- _ => fail 1
  | E : R ?l ?ts = Some (_, _, _), S : shrinkR R |- _ => apply (S l) in E; simpl in E
  end; simpl in *; try lia.

Section Const.
Variable R : rule -> parser.
Hypothesis HS : shrinkR R.
Lemma cvalue_shrink : shrink (cvalue R).
Proof.
  intros ts e i r H; unfold cvalue in H. cases H; inv H; simpl; try lia. apply HS in Heqo; simpl in *; lia.
Qed.
Lemma cfuncall_shrink : shrink (cfuncall R).
Proof.
  intros ts e i r H; unfold cfuncall in H.
  repeat match type of H with
  | cvalue R _ = _ => apply cvalue_shrink in H; exact H
  | context [match ?x with _ => _ end] => destruct x eqn:?; subst
  end.
  inv H. apply HS in Heqo0; apply HS in Heqo1; simpl in *; lia.
Qed.
Lemma cpower_shrink : shrink (cpower R).
Proof. apply chained_shrink; [apply cfuncall_shrink|apply HS]. Qed.
Lemma cneg_shrink : shrink (cneg R).
Proof.
  intros ts e i r H; unfold cneg in H. destruct ts as [|t ts]; [apply cpower_shrink in H; exact H|].
  destruct t; try (apply cpower_shrink in H; exact H).
  destruct (cpower R ts) as [[[a j] r']|] eqn:E; [|discriminate]. inv H. apply cpower_shrink in E; simpl; lia.
Qed.
Lemma cproduct_shrink : shrink (cproduct R).
Proof. apply chained_shrink; apply cneg_shrink. Qed.
Lemma csum_shrink : shrink (csum R).
Proof. apply chained_shrink; apply cproduct_shrink. Qed.

Variable R' : rule -> parser.
Variable k : nat.
Hypothesis HE : sameR k R R'.
Lemma cvalue_same : same k (cvalue R) (cvalue R').
Proof. intros ts Hk; unfold cvalue. destruct ts as [|t ts]; [reflexivity|]. destruct t; try reflexivity. simpl in Hk; rewrite <- HE by lia; reflexivity. Qed.
Lemma cfuncall_same : same k (cfuncall R) (cfuncall R').
Proof.
  intros ts Hk; unfold cfuncall. rewrite <- cvalue_same by exact Hk.
  destruct ts as [|t ts]; [reflexivity|]. destruct t; try reflexivity. destruct ts as [|t ts]; [reflexivity|]. destruct t; try reflexivity.
  destruct (fun_op x); [|reflexivity]. simpl in Hk. rewrite <- (HE RSum ts) by lia.
  destruct (R RSum ts) as [[[a j] r1]|] eqn:E; [|reflexivity]. destruct r1 as [|t r1]; [reflexivity|].
  destruct t; try reflexivity. apply HS in E; simpl in E. rewrite <- (HE RSum r1) by lia. reflexivity.
Qed.
Lemma cpower_same : same k (cpower R) (cpower R').
Proof.
  intros ts Hk. unfold cpower, chained. rewrite <- cfuncall_same by exact Hk.
  destruct (cfuncall R ts) as [[[a j] r0]|] eqn:E; [|reflexivity]. apply cfuncall_shrink in E.
  apply (chain_same _ _ _ _ (k - 1)); [intros u Hu; apply HE; lia|apply HS|lia].
Qed.
Lemma cneg_same : same k (cneg R) (cneg R').
Proof.
  intros ts Hk; unfold cneg. destruct ts as [|t ts]; [apply cpower_same; exact Hk|].
  destruct t; try (apply cpower_same; exact Hk). simpl in Hk; rewrite <- cpower_same by lia; reflexivity.
Qed.
Lemma cproduct_same : same k (cproduct R) (cproduct R').
Proof. apply chained_same; auto using cneg_same, cneg_shrink. Qed.
Lemma csum_same : same k (csum R) (csum R').
Proof. apply chained_same; auto using cproduct_same, cproduct_shrink. Qed.
End Const.

Lemma read_const_shrink : forall n, shrinkR (read_const n).
Proof.
  induction n; intros l; [intros ts e i r H; discriminate H|].
  destruct l; simpl; auto using csum_shrink, cneg_shrink.
Qed.
Lemma read_const_same : forall n m l ts, length ts < n -> length ts < m -> read_const n l ts = read_const m l ts.
Proof.
  induction n; intros m l ts Hn Hm; [lia|]. destruct m; [lia|].
  assert (HE : sameR (length ts) (read_const n) (read_const m)) by (intros l' ts' H; apply IHn; lia).
  simpl. destruct l; [apply (csum_same _ (read_const_shrink n) _ _ HE)|apply (cneg_same _ (read_const_shrink n) _ _ HE)|apply (csum_same _ (read_const_shrink n) _ _ HE)]; lia.
Qed.
(** The reader of constants without fuel *)
Definition creader (l : rule) : parser := fun ts => read_const (S (length ts)) l ts.
Lemma creader_shrink : shrinkR creader.
Proof. intros l ts e i r H; apply read_const_shrink in H; exact H. Qed.
Lemma creader_same : forall n, sameR n (read_const n) creader.
Proof. intros n l ts H; unfold creader; apply read_const_same; lia. Qed.
Lemma creader_sum : forall ts, creader RSum ts = csum creader ts.
Proof. intros ts; unfold creader at 1; simpl; apply (csum_same _ (read_const_shrink _) _ _ (creader_same _)); lia. Qed.
Lemma creader_neg : forall ts, creader RNeg ts = cneg creader ts.
Proof. intros ts; unfold creader at 1; simpl; apply (cneg_same _ (read_const_shrink _) _ _ (creader_same _)); lia. Qed.
Lemma const_expr_eq : forall ts, const_expr ts = csum creader ts.
Proof. intros ts; exact (creader_sum ts). Qed.
Lemma const_value_eq : forall ts, const_value ts = cvalue creader ts.
Proof. intros ts; unfold const_value; apply (cvalue_same _ creader (S (length ts)) (creader_same _)); lia. Qed.
Lemma const_expr_shrink : shrink const_expr.
Proof. intros ts e i r H; rewrite const_expr_eq in H; apply (csum_shrink _ creader_shrink) in H; exact H. Qed.
Lemma const_value_shrink : shrink const_value.
Proof. intros ts e i r H; rewrite const_value_eq in H; apply (cvalue_shrink _ creader_shrink) in H; exact H. Qed.
Lemma in_nat_dom_shrink : forall ts n r, in_nat_dom ts = Some (n, r) -> length r < length ts.
Proof.
  intros ts n r H; unfold in_nat_dom in H. cases H; injection H as <- <-.
  - apply const_value_shrink in Heqo; simpl; lia.
  - apply const_expr_shrink in Heqo; simpl; lia.
Qed.

Section Expr.
Variable preds : list string.
Section Rules.
Variable R : rule -> parser.
Hypothesis HS : shrinkR R.
Lemma value_shrink : shrink (value R).
Proof.
  intros ts e i r H; unfold value in H. destruct ts as [|t ts]; [discriminate|]. destruct t; try discriminate; [|inv H; simpl; lia|].
  - destruct ts as [|t ts]; [inv H; simpl; lia|]. destruct t; try (inv H; simpl; lia).
    destruct (R RExpr ts) as [[[b j] r1]|] eqn:E; [|inv H; simpl; lia].
    destruct r1 as [|t r1]; [inv H; simpl; lia|]. destruct t; try (inv H; simpl; lia).
    inv H; apply HS in E; simpl in *; lia.
  - destruct (R RExpr ts) as [[[b j] r1]|] eqn:E; [|discriminate]. destruct r1 as [|t r1]; [discriminate|].
    destruct t; try discriminate. inv H; apply HS in E; simpl in *; lia.
Qed.
Lemma funcall_shrink : shrink (funcall R).
Proof.
  intros ts e i r H; unfold funcall in H.
  repeat match type of H with
  | value R _ = _ => apply value_shrink in H; exact H
  | context [match ?x with _ => _ end] => destruct x eqn:?; subst
  end.
  inv H. apply HS in Heqo0; apply HS in Heqo1; simpl in *; lia.
Qed.
Lemma power_shrink : shrink (power R).
Proof. apply chained_shrink; [apply funcall_shrink|apply HS]. Qed.
Lemma neg_shrink : shrink (neg R).
Proof.
  intros ts e i r H; unfold neg in H. destruct ts as [|t ts]; [apply power_shrink in H; exact H|].
  destruct t; try (apply power_shrink in H; exact H);
  (destruct (power R ts) as [[[a j] r']|] eqn:E; [|discriminate]; inv H; apply power_shrink in E; simpl; lia).
Qed.
Lemma product_shrink : shrink (product R).
Proof. apply chained_shrink; apply neg_shrink. Qed.
Lemma sum_shrink : shrink (sum R).
Proof. apply chained_shrink; apply product_shrink. Qed.
Lemma comparison_shrink : shrink (comparison preds R).
Proof.
  intros ts e i r H; unfold comparison in H. destruct (sum R ts) as [[[a j] r0]|] eqn:E; [|discriminate].
  apply sum_shrink in E. destruct r0 as [|t r0]; [inv H; exact E|].
  destruct t; try (inv H; exact E). destruct (sum R r0) as [[[b jb] r1]|] eqn:E1; inv H; [|exact E].
  apply sum_shrink in E1; simpl in E; lia.
Qed.
Lemma quantify_shrink : shrink (quantify R).
Proof.
  intros ts e i r H; unfold quantify in H. destruct ts as [|t ts]; [discriminate|]. destruct t; try discriminate.
  destruct ts as [|t ts]; [discriminate|]. destruct t; try discriminate.
  destruct (in_nat_dom ts) as [[n r0]|] eqn:E; [|discriminate]. destruct r0 as [|t r0]; [discriminate|]. destruct t; try discriminate.
  destruct (R RExpr r0) as [[[c j] r1]|] eqn:E1; [|discriminate]. inv H.
  apply HS in E1; apply in_nat_dom_shrink in E; simpl in *; lia.
Qed.
Lemma if_then_else_shrink : shrink (if_then_else R).
Proof.
  intros ts e i r H; unfold if_then_else in H. destruct ts as [|t ts]; [discriminate|]. destruct t; try discriminate.
  destruct (R RExpr ts) as [[[a j] r1]|] eqn:E1; [|discriminate]. destruct r1 as [|t r1]; [discriminate|]. destruct t; try discriminate.
  destruct (R RExpr r1) as [[[b jb] r2]|] eqn:E2; [|discriminate]. destruct r2 as [|t r2]; [discriminate|]. destruct t; try discriminate.
  destruct (R RExpr r2) as [[[c jc] r3]|] eqn:E3; [|discriminate]. destruct (jb && jc); [|discriminate]. inv H.
  apply HS in E1; apply HS in E2; apply HS in E3; simpl in *; lia.
Qed.
Lemma chainless_shrink : shrink (chainless preds R).
Proof.
  intros ts e i r H; unfold chainless in H. destruct (quantify R ts) as [x|] eqn:E; [subst|apply comparison_shrink in H; exact H].
  rewrite H in E; apply quantify_shrink in E; exact E.
Qed.
Lemma conjunction_shrink : shrink (conjunction preds R).
Proof. apply chained_shrink; apply chainless_shrink. Qed.
Lemma disjunction_shrink : shrink (disjunction preds R).
Proof. apply chained_shrink; apply conjunction_shrink. Qed.
Lemma implication_shrink : shrink (implication preds R).
Proof. apply chained_shrink; apply disjunction_shrink. Qed.
Lemma biimplication_shrink : shrink (biimplication preds R).
Proof. apply chained_shrink; apply implication_shrink. Qed.
Lemma expression_shrink : shrink (expression preds R).
Proof.
  intros ts e i r H; unfold expression in H. destruct (quantify R ts) as [x|] eqn:E.
  - rewrite H in E; apply quantify_shrink in E; exact E.
  - destruct (if_then_else R ts) as [x|] eqn:E1; [rewrite H in E1; apply if_then_else_shrink in E1; exact E1|].
    apply biimplication_shrink in H; exact H.
Qed.

Variable R' : rule -> parser.
Variable k : nat.
Hypothesis HE : sameR k R R'.
Lemma value_same : same k (value R) (value R').
Proof.
  intros ts Hk; unfold value. destruct ts as [|t ts]; [reflexivity|]. destruct t; try reflexivity; simpl in Hk.
  - destruct ts as [|t ts]; [reflexivity|]. destruct t; try reflexivity. simpl in Hk; rewrite <- HE by lia; reflexivity.
  - rewrite <- HE by lia; reflexivity.
Qed.
Lemma funcall_same : same k (funcall R) (funcall R').
Proof.
  intros ts Hk; unfold funcall. rewrite <- value_same by exact Hk.
  destruct ts as [|t ts]; [reflexivity|]. destruct t; try reflexivity. destruct ts as [|t ts]; [reflexivity|]. destruct t; try reflexivity.
  destruct (fun_op x); [|reflexivity]. simpl in Hk. rewrite <- (HE RSum ts) by lia.
  destruct (R RSum ts) as [[[a j] r1]|] eqn:E; [|reflexivity]. destruct r1 as [|t r1]; [reflexivity|].
  destruct t; try reflexivity. apply HS in E; simpl in E. rewrite <- (HE RSum r1) by lia. reflexivity.
Qed.
Lemma power_same : same k (power R) (power R').
Proof.
  intros ts Hk. unfold power, chained. rewrite <- funcall_same by exact Hk.
  destruct (funcall R ts) as [[[a j] r0]|] eqn:E; [|reflexivity]. apply funcall_shrink in E.
  apply (chain_same _ _ _ _ (k - 1)); [intros u Hu; apply HE; lia|apply HS|lia].
Qed.
Lemma neg_same : same k (neg R) (neg R').
Proof.
  intros ts Hk; unfold neg. destruct ts as [|t ts]; [apply power_same; exact Hk|].
  destruct t; try (apply power_same; exact Hk); simpl in Hk; rewrite <- power_same by lia; reflexivity.
Qed.
Lemma product_same : same k (product R) (product R').
Proof. apply chained_same; auto using neg_same, neg_shrink. Qed.
Lemma sum_same : same k (sum R) (sum R').
Proof. apply chained_same; auto using product_same, product_shrink. Qed.
Lemma comparison_same : same k (comparison preds R) (comparison preds R').
Proof.
  intros ts Hk; unfold comparison. rewrite <- sum_same by exact Hk.
  destruct (sum R ts) as [[[a j] r0]|] eqn:E; [|reflexivity]. apply sum_shrink in E. destruct r0 as [|t r0]; [reflexivity|].
  destruct t; try reflexivity. simpl in E. rewrite <- sum_same by lia; reflexivity.
Qed.
Lemma quantify_same : same k (quantify R) (quantify R').
Proof.
  intros ts Hk; unfold quantify. destruct ts as [|t ts]; [reflexivity|]. destruct t; try reflexivity.
  destruct ts as [|t ts]; [reflexivity|]. destruct t; try reflexivity.
  destruct (in_nat_dom ts) as [[n r0]|] eqn:E; [|reflexivity]. destruct r0 as [|t r0]; [reflexivity|]. destruct t; try reflexivity.
  apply in_nat_dom_shrink in E; simpl in *. rewrite <- HE by lia; reflexivity.
Qed.
Lemma if_then_else_same : same k (if_then_else R) (if_then_else R').
Proof.
  intros ts Hk; unfold if_then_else. destruct ts as [|t ts]; [reflexivity|]. destruct t; try reflexivity. simpl in Hk.
  rewrite <- HE by lia. destruct (R RExpr ts) as [[[a j] r1]|] eqn:E1; [|reflexivity].
  destruct r1 as [|t r1]; [reflexivity|]. destruct t; try reflexivity. apply HS in E1; simpl in E1.
  rewrite <- HE by lia. destruct (R RExpr r1) as [[[b jb] r2]|] eqn:E2; [|reflexivity].
  destruct r2 as [|t r2]; [reflexivity|]. destruct t; try reflexivity. apply HS in E2; simpl in E2.
  rewrite <- HE by lia. reflexivity.
Qed.
Lemma chainless_same : same k (chainless preds R) (chainless preds R').
Proof. intros ts Hk; unfold chainless. rewrite <- quantify_same, <- comparison_same by exact Hk. reflexivity. Qed.
Lemma conjunction_same : same k (conjunction preds R) (conjunction preds R').
Proof. apply chained_same; auto using chainless_same, chainless_shrink. Qed.
Lemma disjunction_same : same k (disjunction preds R) (disjunction preds R').
Proof. apply chained_same; auto using conjunction_same, conjunction_shrink. Qed.
Lemma implication_same : same k (implication preds R) (implication preds R').
Proof. apply chained_same; auto using disjunction_same, disjunction_shrink. Qed.
Lemma biimplication_same : same k (biimplication preds R) (biimplication preds R').
Proof. apply chained_same; auto using implication_same, implication_shrink. Qed.
Lemma expression_same : same k (expression preds R) (expression preds R').
Proof.
  intros ts Hk; unfold expression. rewrite <- quantify_same, <- if_then_else_same, <- biimplication_same by exact Hk. reflexivity.
Qed.
End Rules.

Lemma read_rule_shrink : forall n, shrinkR (read_rule preds n).
Proof.
  induction n; intros l; [intros ts e i r H; discriminate H|].
  destruct l; simpl; auto using sum_shrink, neg_shrink, expression_shrink.
Qed.
Lemma read_rule_same : forall n m l ts, length ts < n -> length ts < m -> read_rule preds n l ts = read_rule preds m l ts.
Proof.
  induction n; intros m l ts Hn Hm; [lia|]. destruct m; [lia|].
  assert (HE : sameR (length ts) (read_rule preds n) (read_rule preds m)) by (intros l' ts' H; apply IHn; lia).
  simpl. destruct l;
  [apply (sum_same _ (read_rule_shrink n) _ _ HE)|apply (neg_same _ (read_rule_shrink n) _ _ HE)|
   apply (expression_same _ (read_rule_shrink n) _ _ HE)]; lia.
Qed.
(** The reader without fuel *)
Definition reader (l : rule) : parser := fun ts => read_rule preds (S (length ts)) l ts.
Lemma reader_shrink : shrinkR reader.
Proof. intros l ts e i r H; apply read_rule_shrink in H; exact H. Qed.
Lemma reader_same : forall n, sameR n (read_rule preds n) reader.
Proof. intros n l ts H; unfold reader; apply read_rule_same; lia. Qed.
Lemma reader_sum : forall ts, reader RSum ts = sum reader ts.
Proof. intros ts; unfold reader at 1; simpl; apply (sum_same _ (read_rule_shrink _) _ _ (reader_same _)); lia. Qed.
Lemma reader_neg : forall ts, reader RNeg ts = neg reader ts.
Proof. intros ts; unfold reader at 1; simpl; apply (neg_same _ (read_rule_shrink _) _ _ (reader_same _)); lia. Qed.
Lemma reader_expr : forall ts, reader RExpr ts = expression preds reader ts.
Proof. intros ts; unfold reader at 1; simpl; apply (expression_same _ (read_rule_shrink _) _ _ (reader_same _)); lia. Qed.
End Expr.
