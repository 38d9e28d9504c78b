(** C67: integer expressions over the variables mean what they say in every state. *)
From Coq Require Import List Arith Bool ZArith Lia.
From Verif Require Import FinLib Radix FmlaModel FmlaSpec FmlaProofs FmlaProofs2 FmlaProofs3 FmlaProofs4 FmlaProps
  IntModel IntSpec IntProofs.
Import ListNotations.

Lemma op_agree : forall op x y, op_value op x y = op_means op x y.
Proof.
  intros op x y. destruct op; cbn [op_value op_means]; auto.
  - destruct (Z.eqb_spec y 0), (Z.eq_dec y 0); auto; contradiction.
  - destruct (Z.leb_spec y 0), (Z_lt_dec 0 y); auto; lia.
  - destruct (Z.ltb_spec y 0), (Z_le_dec 0 y); auto; try lia. f_equal.
    rewrite <- (Z2Nat.id y) at 2 by auto. induction (Z.to_nat y) as [|m IH]; auto.
    cbn [pow_loop]. rewrite IH, Nat2Z.inj_succ, Z.pow_succ_r by lia. lia.
  - destruct (Z.ltb_spec y x); f_equal; lia.
  - destruct (Z.ltb_spec x y); f_equal; lia.
Qed.

(** A variable has the value it has in the state, a literal the same value in all of them. *)
Theorem C67_variable : forall ds v, v < length ds -> represents ds (of_vbl ds v) (fun s => Z.of_nat (nth v s 0)).
Proof. intros ds v V. exact (of_vbl_table ds v V). Qed.
Print Assumptions C67_variable.

Theorem C67_constant : forall ds z, represents ds (of_int z) (fun _ => z).
Proof. intros ds z. destruct (of_int_table ds z). split; auto. Qed.
Print Assumptions C67_constant.

Theorem C67_negate : forall ds a f, represents ds a f -> represents ds (negate a) (fun s => (- f s)%Z).
Proof. intros ds a f (A & F). destruct (negate_table ds a A) as (N1 & N2). split; auto. intros s S. rewrite N2, F by auto. auto. Qed.
Print Assumptions C67_negate.

(** An operation on two expressions: it is computed exactly when it has a meaning in every state, and then
    it has that value in each. *)
Theorem C67_operator : forall ds a b f g op, inhabited ds -> represents ds a f -> represents ds b g ->
  (forall c, defeq_binop a b op = Some c ->
     exists h, represents ds c h /\ forall s, ok ds s -> op_means op (f s) (g s) = Some (h s)) /\
  (defeq_binop a b op = None <-> exists s, ok ds s /\ op_means op (f s) (g s) = None).
Proof.
  intros ds a b f g op INH (A & F) (B & G).
  assert (P1 : forall c, defeq_binop a b op = Some c ->
     exists h, represents ds c h /\ forall s, ok ds s -> op_means op (f s) (g s) = Some (h s)).
  { intros c E. destruct (binop_some ds INH a b op c A B E) as (C & H). exists (entry c). split; [split; auto|].
    intros s S. rewrite <- op_agree, <- F, <- G by auto. auto. }
  split; auto. split.
  - intros E. destruct (binop_none ds INH a b op A B E) as (s & S & H). exists s. split; auto. rewrite <- op_agree, <- F, <- G by auto. auto.
  - intros (s & S & H). destruct (defeq_binop a b op) as [c|]; auto. destruct (P1 c eq_refl) as (h & _ & X). specialize (X s S). congruence.
Qed.
Print Assumptions C67_operator.

(** A comparison holds in exactly the states where it holds of the two values. *)
Theorem C67_compare : forall ds a b f g c_lt c_eq c_gt, inhabited ds -> represents ds a f -> represents ds b g ->
  exists pf, cmp ds a b c_lt c_eq c_gt = Some pf /\ state_fmla ds pf /\
  forall s, ok ds s -> (holds pf s <->
    (c_lt = true /\ (f s < g s)%Z) \/ (c_eq = true /\ f s = g s) \/ (c_gt = true /\ (f s > g s)%Z)).
Proof.
  intros ds a b f g c_lt c_eq c_gt INH (A & F) (B & G).
  destruct (cmp_spec ds INH a b c_lt c_eq c_gt A B) as (pf & E & H). exists pf. split; auto. split.
  - intros x i x' i' s X I X' I' S. rewrite (H x i s), (H x' i' s) by auto. tauto.
  - intros s S. unfold holds. rewrite (H s s s S S S), F, G by auto. rewrite Z.gt_lt_iff. tauto.
Qed.
Print Assumptions C67_compare.

(** An assignment allows exactly the steps after which the left side has the value that the right side had before. *)
Theorem C67_assign : forall ds a b f g, inhabited ds -> represents ds a f -> represents ds b g ->
  exists pf, img_eq ds a b = Some pf /\ trans_fmla ds pf /\
  forall s t, ok ds s -> ok ds t -> (steps pf s t <-> f t = g s).
Proof.
  intros ds a b f g INH (A & F) (B & G). destruct (i_vbls a) as [|v l] eqn:V.
  - unfold img_eq. rewrite V. cbn [length Nat.eqb]. destruct (cmp_spec ds INH a b false true false A B) as (pf & E & H).
    exists pf. split; auto. split.
    + intros x x' i s X X' I S. rewrite (H x i s), (H x' i s) by auto. tauto.
    + intros s t S T. unfold steps. rewrite (H s t s S T S).
      assert (FT : f t = entry a s) by (rewrite <- F by auto; unfold entry; rewrite V; reflexivity). rewrite FT, <- G by auto. intuition discriminate.
  - destruct (img_eq_spec ds INH a b A B) as (pf & E & H); [rewrite V; discriminate|]. exists pf. split; auto. split.
    + intros x x' i s X X' I S. rewrite (H x i s), (H x' i s) by auto. tauto.
    + intros s t S T. unfold steps. rewrite (H s t s S T S), F, G by auto. tauto.
Qed.
Print Assumptions C67_assign.

(** The expressions of [x[1] := (x[0] * 2 - x[1]) % 3] over variables with two and three values. *)
Definition small := [2; 3].
Definition rhs : option ipf :=
  match defeq_binop (of_vbl small 0) (of_int 2) MulOp with
  | None => None
  | Some e => match defeq_binop e (of_vbl small 1) SubOp with None => None | Some e' => defeq_binop e' (of_int 3) ModOp end
  end.
Example C67_example : inhabited small /\
  (exists e, rhs = Some e /\ i_vbls e = [0; 1] /\ i_map e = [0; 2; 1; 2; 1; 0]%Z) /\
  (exists e pf, rhs = Some e /\ img_eq small (of_vbl small 1) e = Some pf /\
     map (fun t => eval pf (join [1; 2] t [1; 2])) [[0; 0]; [1; 0]; [0; 1]; [0; 2]] = [true; true; false; false]) /\
  defeq_binop (of_vbl small 1) (of_vbl small 0) DivOp = None /\
  (exists pf, cmp small (of_vbl small 0) (of_vbl small 1) true false false = Some pf /\
     map (fun s => eval pf (join s s s)) [[0; 0]; [0; 1]; [1; 1]; [1; 2]] = [false; true; false; true]).
Proof.
  split; [repeat constructor|]. split; [|split; [|split]].
  - eexists. vm_compute. split; [reflexivity|split; reflexivity].
  - eexists _, _. split; [vm_compute; reflexivity|]. split; [vm_compute; reflexivity|]. vm_compute. reflexivity.
  - vm_compute. reflexivity.
  - eexists. split; [vm_compute; reflexivity|]. vm_compute. reflexivity.
Qed.

(** Two lists of numbers (ranges and literals, which depend on no variable) are combined pairwise: the
    result has one entry for each pair, in order, and it is computed exactly when all pairs have a value. *)
Theorem C67_range_operator : forall a b op, i_vbls a = [] -> i_vbls b = [] -> i_map a <> [] -> i_map b <> [] ->
  (forall c, defeq_binop a b op = Some c -> i_vbls c = [] /\ length (i_map c) = length (i_map a) * length (i_map b) /\
     forall i j, i < length (i_map a) -> j < length (i_map b) ->
       op_means op (nth i (i_map a) 0%Z) (nth j (i_map b) 0%Z) = Some (nth (i * length (i_map b) + j) (i_map c) 0%Z)) /\
  (defeq_binop a b op = None <-> exists x y, In x (i_map a) /\ In y (i_map b) /\ op_means op x y = None).
Proof.
  intros a b op VA VB NA NB.
  set (n := length (i_map b)). assert (PN : 0 < n) by (unfold n; destruct (i_map b); [contradiction|cbn; lia]).
  assert (PA : 0 < length (i_map a)) by (destruct (i_map a); [contradiction|cbn; lia]).
  set (d := i_doms a ++ i_doms b).
  set (f := fun idx => op_value op (nth idx (add_domain n (i_map a)) 0%Z) (nth (idx mod n) (i_map b) 0%Z)).
  assert (E : defeq_binop a b op = option_map (mkIpf [] d) (all_some (map f (seq 0 (length (i_map a) * n))))).
  { unfold defeq_binop, intmap_init_op. fold n. rewrite (proj2 (Nat.eqb_neq (length (i_map a)) 0)), (proj2 (Nat.eqb_neq n 0)) by lia.
    rewrite VA, VB. cbn [length Nat.eqb orb andb i_vbls i_doms i_map]. rewrite add_domain_length. unfold f, coerce_lookup. cbn [i_vbls length Nat.eqb]. reflexivity. }
  assert (F : forall i j, j < n -> f (i * n + j) = op_means op (nth i (i_map a) 0%Z) (nth j (i_map b) 0%Z)).
  { intros i j J. unfold f. rewrite add_domain_nth by auto. rewrite op_agree. do 2 f_equal.
    rewrite Nat.add_comm, Nat.mod_add by lia. apply Nat.mod_small. auto. }
  assert (P1 : forall c, defeq_binop a b op = Some c -> i_vbls c = [] /\ length (i_map c) = length (i_map a) * n /\
     forall i j, i < length (i_map a) -> j < n ->
       op_means op (nth i (i_map a) 0%Z) (nth j (i_map b) 0%Z) = Some (nth (i * n + j) (i_map c) 0%Z)).
  { intros c H. rewrite E in H. destruct (all_some _) as [r|] eqn:A; [|discriminate]. injection H as <-. cbn [i_vbls i_map].
    apply all_some_map in A. destruct A as (L & H). rewrite seq_length in *. split; auto. split; auto.
    intros i j I J. assert (LT : i * n + j < length (i_map a) * n) by nia. specialize (H _ LT). rewrite seq_nth in H by auto.
    cbn [Nat.add] in H. rewrite F in H by auto. auto. }
  split; auto. split.
  - intros H. rewrite E in H. destruct (all_some _) as [r|] eqn:A; [discriminate|]. apply all_some_none in A. destruct A as (x & X & N).
    apply in_seq in X. rewrite (Nat.div_mod x n), (Nat.mul_comm n) in N by lia. rewrite F in N by (apply Nat.mod_upper_bound; lia).
    eexists _, _. split; [|split; [|exact N]]; apply nth_In; [apply Nat.div_lt_upper_bound; nia|apply Nat.mod_upper_bound; lia].
  - intros (x & y & X & Y & N). destruct (defeq_binop a b op) as [c|]; auto. destruct (P1 c eq_refl) as (_ & _ & H).
    apply (In_nth _ _ 0%Z) in X, Y. destruct X as (i & I & <-), Y as (j & J & <-). rewrite (H i j I J) in N. discriminate.
Qed.
Print Assumptions C67_range_operator.

Example C67_range_example : exists c, defeq_binop (of_range 3) (mkIpf [] [2] [1; 5]%Z) SubOp = Some c /\ i_map c = [-1; -5; 0; -4; 1; -3]%Z.
Proof. eexists. vm_compute. split; reflexivity. Qed.
