(** C71: the text of an expression or action that is kept for the output file reads back as the same
    expression or action. *)
From Coq Require Import String List Arith Bool ZArith Lia.
From Verif Require Import FmlaModel IntModel ExprModel ExprSpec ActModel NetModel CmdModel ParseModel ParseSpec ParseProofs2 ParseProofs3 ParseProofs4 ParseProofs5.
Import ListNotations.
Local Open Scope string_scope.
Local Open Scope list_scope.

(** An expression of the input file, written to the output file and read again, is the same expression,
    unless an equality of predicates stands beside a tighter operator. *)
Theorem C71_reads_back : forall preds ts e, read_expr preds ts = Some e -> iffs_apart e ->
  read_expr preds (print e) = Some e.
Proof.
  intros preds ts e H HI. apply read_expr_take in H; apply read_expr_take. rewrite <- (app_nil_r (print e)).
  apply take_back; simpl; auto. eapply read_raw; eauto.
Qed.
Print Assumptions C71_reads_back.

Theorem C71_action : forall preds ts a, read_action preds ts = Some a -> apart_action a ->
  read_action preds (print_action a) = Some a.
Proof. intros preds ts a H HI. apply read_action_raw in H. destruct H. apply action_back; auto. Qed.
Print Assumptions C71_action.

(** The text kept of several assumptions means that all of them hold. *)
Theorem C71_assumptions : forall preds texts es, es <> [] ->
  Forall2 (fun ts e => read_expr preds ts = Some e) texts es -> Forall iffs_apart es ->
  exists a, read_expr preds (fold_left add_assume_text es []) = Some a /\
    forall G b s, truth G b a s = together (map (fun e => truth G b e s) es).
Proof.
  intros preds texts es H0 H1 H2. destruct es as [|e l]; [contradiction|]. apply assumptions_back.
  clear H0; revert H2. induction H1 as [|ts e' texts es H HF IH]; intros H2; [constructor|]. inversion H2; subst.
  constructor; auto. split; auto. apply read_expr_take in H. eapply read_raw; eauto.
Qed.
Print Assumptions C71_assumptions.

(** The text kept of several invariants means that all of them hold, provided that from the second on none has an operator
    weaker than "&&" at its top. *)
Theorem C71_invariants : forall preds texts es, es <> [] ->
  Forall2 (fun ts e => read_expr preds ts = Some e) texts es -> Forall iffs_apart es ->
  Forall (fun e => weaker_than_and e = false) (tl es) ->
  exists a, read_expr preds (fold_left add_legit_text es []) = Some a /\
    forall G b s, truth G b a s = together (map (fun e => truth G b e s) es).
Proof.
  intros preds texts es H0 H1 H2 H3.
  assert (HR : Forall (raw preds) es).
  { clear - H1. induction H1; constructor; auto. apply read_expr_take in H. eapply read_raw; eauto. }
  destruct es as [|e l]; [contradiction|]. simpl in H3. inversion H2; inversion HR; subst. apply invariants_back; auto.
  apply Forall_forall. intros x Hx. rewrite Forall_forall in *. auto.
Qed.
Print Assumptions C71_invariants.

(** Every expression can be written so that it is read with its meaning: with all operands in parentheses. *)
Theorem C71_every_meaning : forall preds e, kinded e ->
  exists a, read_expr preds (print (bracketed e)) = Some a /\
    forall G b s, truth G b a s = truth G b e s /\ value_of G b a s = value_of G b e s.
Proof.
  intros preds e H. exists (bracketed e). split; [|intros; apply bracketed_means].
  destruct (raw_bracketed preds e H). apply read_expr_take. rewrite <- (app_nil_r (print _)). apply take_back; simpl; auto.
Qed.
Print Assumptions C71_every_meaning.

Definition x_at (i v : nat) : list tok := [TId "x"; TLb; TNat i; TRb; TCmp CEq; TNat v].
Definition three : scope := mkScope [] [] [] [("x", [0; 1; 2])] [].

(** "(x[0]==0) == (x[1]==0) && x[2]==0" is read as a conjunction and written as "(x[0]==0) <=> (x[1]==0) && x[2]==0", which is
    read as an equivalence: it holds in a state in which the input does not hold. *)
Theorem C71_equality_refuted : exists ts e a s, read_expr [] ts = Some e /\ read_expr [] (print e) = Some a /\
  truth three [] e s = Some false /\ truth three [] a s = Some true.
Proof.
  exists (TLp :: x_at 0 0 ++ TRp :: TCmp CEq :: TLp :: x_at 1 0 ++ TRp :: TAnd :: x_at 2 0).
  eexists. eexists. exists [1; 0; 1]. split; [vm_compute; reflexivity|]. split; [vm_compute; reflexivity|].
  split; vm_compute; reflexivity.
Qed.
Print Assumptions C71_equality_refuted.

(** Two invariants, "x[0]==0" and "x[1]==0 || x[2]==0": the text kept of them is "(x[0]==0) && x[1]==0 || x[2]==0", which
    holds in a state in which the first one does not. *)
Theorem C71_invariants_refuted : exists t1 t2 e1 e2 a s, read_expr [] t1 = Some e1 /\ read_expr [] t2 = Some e2 /\
  iffs_apart e1 /\ iffs_apart e2 /\
  read_expr [] (fold_left add_legit_text [e1; e2] []) = Some a /\
  truth three [] e1 s = Some false /\ truth three [] a s = Some true.
Proof.
  exists (x_at 0 0), (x_at 1 0 ++ TOr :: x_at 2 0). eexists. eexists. eexists. exists [1; 1; 0].
  split; [vm_compute; reflexivity|]. split; [vm_compute; reflexivity|]. split; [simpl; tauto|]. split; [simpl; tauto|].
  split; [vm_compute; reflexivity|]. split; vm_compute; reflexivity.
Qed.
Print Assumptions C71_invariants_refuted.

(** Read and written back: "forall i < N-1 : x[i]==0 || !P ==> x[i+1] % 2 != 1 && -x[i]^2 < 3 <=> max(x[0],2) >= i", an action with
    both arrows' pieces, three assumptions. *)
Definition long_text : list tok :=
  [TQuant QForall; TId "i"; TCmp CLt; TId "N"; TMinus; TNat 1; TColon;
   TId "x"; TLb; TId "i"; TRb; TCmp CEq; TNat 0; TOr; TBang; TId "P"; TImp;
   TId "x"; TLb; TId "i"; TPlus; TNat 1; TRb; TMod; TNat 2; TCmp CNe; TNat 1; TAnd;
   TMinus; TId "x"; TLb; TId "i"; TRb; TPow; TNat 2; TCmp CLt; TNat 3; TIff;
   TId "max"; TLp; TId "x"; TLb; TNat 0; TRb; TComma; TNat 2; TRp; TCmp CGe; TId "i"].
Example C71_example :
  (exists e, read_expr ["P"] long_text = Some e /\ iffs_apart e /\ print e = long_text) /\
  (exists a, read_action [] (TLp :: x_at 0 1 ++ TCutTo :: [TId "x"; TLb; TNat 1; TRb; TSet; TNat 0; TSemi; TId "x"; TLb; TNat 2; TRb; TSemi; TWild; TSemi; TRp]) = Some a /\
     apart_action a /\ length (a_assigns a) = 3) /\
  (exists e, read_expr ["P"] [TId "P"; TCmp CEq; TId "Q"] = Some (SIff (SName "P") (SName "Q")) /\
     read_expr [] [TId "P"; TCmp CEq; TId "Q"] = Some e /\ e = SCmp CEq (SName "P") (SName "Q")) /\
  kinded (SImp (SQuant QExists "i" (SNat 3) (SCmp CLt (SAref "x" (SName "i")) (SNat 2))) (SXor (SBool (SAnd (SName "P") (SName "Q"))) (SName "P"))).
Proof.
  split; [|split; [|split]].
  - eexists. split; [vm_compute; reflexivity|]. split; [simpl; repeat split; auto|]. vm_compute; reflexivity.
  - eexists. split; [vm_compute; reflexivity|]. split; [|reflexivity]. split; [simpl; auto|]. simpl. repeat constructor; simpl; auto.
  - eexists. split; [vm_compute; reflexivity|]. split; [vm_compute; reflexivity|]. reflexivity.
  - simpl; repeat split; auto.
Qed.
