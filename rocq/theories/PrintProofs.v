(** Actions in the output file: they are read back. *)
From Coq Require Import String List Arith Bool ZArith Lia.
From Verif Require Import FmlaModel FmlaSpec IntModel ExprModel ExprSpec ActModel ActSpec ActProofs ActProofs2 ActProofs4 NetModel NetSpec NetProofs CmdModel CmdSpec
  ParseModel ParseSpec ParseProofs ParseProofs2 ParseProofs3 ParseProofs4 AccessModel AccessSpec AccessProofs AccessProofs2 PrintModel PrintSpec.
Import ListNotations.
Local Open Scope list_scope.

Section Tree.
Variable names : list string.
Variable K : pcsymm.
Variable sls : list slot.
Variable v : list nat.
Definition test (i : nat) : sexp := SCmp CEq (vbl_name sls i) (SNat (guard v i)).
Definition seen_ones : list nat := filter (fun i => synt_read_ck (acc K i)) (seq 0 (nr K)).
Definition all_tests (l : list nat) : sexp :=
  match l with [] => SName "true" | i :: l' => fold_left (fun e j => SAnd e (test j)) l' (test i) end.
Definition assigns_at (w : nat) : bool :=
  negb (puppet_self_loop_ck K v && negb (pure_shadow_ck (waccess K w))) && negb (a_dom (waccess K w) =? assign K v w).
Definition assignment_at (w : nat) : assignment :=
  ASet (sl_array (nth (nth w (wmap K) 0) sls slot0)) (sl_text (nth (nth w (wmap K) 0) sls slot0))
    (if random_write_ck (waccess K w) then None else Some (SNat (assign K v w))).
Definition the_action : action :=
  mkAction false (all_tests seen_ones) (map assignment_at (filter assigns_at (seq 0 (nw K)))).

Lemma tests_text : forall l e, print (fold_left (fun e j => SAnd e (test j)) l e) =
  print e ++ concat (map (fun i => TAnd :: print (test i)) l).
Proof. induction l as [|i l IH]; intros e; cbn [fold_left map concat]; [rewrite app_nil_r; auto|]. rewrite IH. cbn [print]. rewrite <- !app_assoc. reflexivity. Qed.
Lemma joined_text : forall l x, joined (x :: l) = x ++ concat (map (fun y => TAnd :: y) l).
Proof. induction l as [|y l IH]; intros x; [simpl; rewrite app_nil_r; auto|]. cbn [joined] in *. rewrite IH. simpl. reflexivity. Qed.
Lemma text_tree : seen_ones <> [] -> action_text K sls v = print_action the_action.
Proof.
  intros NE. unfold action_text, print_action, the_action. cbn [a_guard a_cut a_assigns]. f_equal. f_equal.
  - unfold guard_text. fold seen_ones. destruct seen_ones as [|i l]; [contradiction|]. cbn [map all_tests]. rewrite joined_text, tests_text, map_map. reflexivity.
  - f_equal. f_equal. induction (seq 0 (nw K)) as [|w l IH]; [reflexivity|]. cbn [map concat filter]. rewrite IH. unfold assign_text at 1, assigns_at at 2.
    destruct (puppet_self_loop_ck K v && negb (pure_shadow_ck (waccess K w))); [reflexivity|]. destruct (a_dom (waccess K w) =? assign K v w); [reflexivity|]. cbn [negb andb map concat].
    f_equal. unfold assignment_at, print_assign. destruct (random_write_ck (waccess K w)); reflexivity.
Qed.
Hypothesis NICE : forall i, i < nr K -> raw names (sl_text (nth i sls slot0)) /\ iffs_apart (sl_text (nth i sls slot0)).
Lemma test_nice : forall i, i < nr K -> raw names (test i) /\ iffs_apart (test i).
Proof. intros i I. destruct (NICE i I). unfold test, vbl_name. simpl. repeat split; auto; lia. Qed.
Lemma tests_nice : forall l e, (forall i, In i l -> i < nr K) -> raw names e /\ iffs_apart e /\ rank e <= 7 /\ is_iff e = false /\ open e = false ->
  raw names (fold_left (fun e j => SAnd e (test j)) l e) /\ iffs_apart (fold_left (fun e j => SAnd e (test j)) l e).
Proof.
  induction l as [|i l IH]; intros e H (R & A & RK & IF & OP); [split; auto|]. cbn [fold_left]. apply IH; [intros; apply H; right; auto|].
  destruct (test_nice i) as [T1 T2]; [apply H; left; auto|]. split; [|split; [|split; [simpl; lia|split; reflexivity]]].
  - cbn [raw]. split; auto. split; auto. split; [|split; [simpl; lia|auto]]. unfold fit. destruct e; auto; discriminate.
  - cbn [iffs_apart]. split; [exact IF|]. split; [reflexivity|]. split; [exact A|exact T2].
Qed.
Lemma tree_nice : raw names (a_guard the_action) /\ Forall (raw_assign names) (a_assigns the_action) /\ apart_action the_action.
Proof.
  assert (G : raw names (all_tests seen_ones) /\ iffs_apart (all_tests seen_ones)).
  { unfold all_tests. destruct seen_ones as [|i l] eqn:E; [simpl; auto|]. assert (B : forall j, In j (i :: l) -> j < nr K).
    { intros j J. rewrite <- E in J. unfold seen_ones in J. apply filter_In in J. destruct J as [J _]. apply in_seq in J. lia. }
    destruct (test_nice i) as [T1 T2]; [apply B; left; auto|]. apply tests_nice; [intros; apply B; right; auto|]. split; [exact T1|]. split; [exact T2|]. split; [simpl; lia|split; reflexivity]. }
  assert (A : forall w, w < nw K -> raw_assign names (assignment_at w) /\ apart_assign (assignment_at w)).
  { intros w W. destruct (wmap_nth K w W) as (I & _ & _). destruct (NICE _ I). unfold assignment_at, raw_assign, apart_assign. destruct (random_write_ck (waccess K w)); simpl; auto. }
  split; [apply G|]. unfold apart_action. cbn [a_guard a_assigns the_action]. rewrite !Forall_forall.
  assert (IN : forall a, In a (map assignment_at (filter assigns_at (seq 0 (nw K)))) -> raw_assign names a /\ apart_assign a).
  { intros a I. apply in_map_iff in I. destruct I as (w & <- & I). apply filter_In in I. destruct I as [I _]. apply in_seq in I. apply A. lia. }
  split; [intros; apply IN; auto|]. split; [apply G|intros; apply IN; auto].
Qed.
Lemma tree_back : seen_ones <> [] -> read_action names (action_text K sls v) = Some the_action.
Proof. intros NE. rewrite text_tree by auto. destruct tree_nice as (A & B & C). apply action_back; auto. Qed.
End Tree.
