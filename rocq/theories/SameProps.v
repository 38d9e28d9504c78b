(** C95: in all instances of a file that are accepted together, an action number is the same action. *)
From Coq Require Import String List Arith Bool ZArith Lia.
From Verif Require Import FinLib Radix CmdModel ParseModel AccessModel FmlaModel ActModel ActSpec NetModel IntModel ExprModel DeclModel HeadModel
  InstModel SameModel SameSpec SameProofs.
Import ListNotations.
Local Open Scope string_scope.
Local Open Scope list_scope.
Local Open Scope nat_scope.

(** Two readings of one text, with whatever constants, have the same kinds of processes but for the domains of variables. *)
Theorem C95_shape : forall g1 g2 t R1 R2, read_text g1 t = Some R1 -> read_text g2 t = Some R2 ->
  Forall2 like_kind (system_kinds R1) (system_kinds R2) /\ length (system_kinds R1) = kind_count t.
Proof. exact read_like. Qed.
Print Assumptions C95_shape.

(** So the comparison of two systems succeeds exactly when all accesses have the same domains. *)
Theorem C95_compare : forall g1 g2 t R1 R2, read_text g1 t = Some R1 -> read_text g2 t = Some R2 ->
  same_doms_ck (system_kinds R1) (system_kinds R2) = true <-> same_domains (system_kinds R1) (system_kinds R2).
Proof. intros g1 g2 t R1 R2 H1 H2. apply same_ck. exact (proj1 (read_like _ _ _ _ _ H1 H2)). Qed.
Print Assumptions C95_compare.

Lemma parsed_in : forall A B (f : A -> option B) l r, all_parsed (map f l) = Some r -> forall b, In b r -> exists a, In a l /\ f a = Some b.
Proof.
  intros A B f. induction l as [|a l IH]; intros r H b Hb; cbn in H; [injection H as <-; destruct Hb|].
  destruct (f a) as [b0|] eqn:E; [|discriminate]. destruct (all_parsed (map f l)) as [r0|]; [|discriminate]. injection H as <-.
  destruct Hb as [<-|Hb]; [exists a; split; [left; reflexivity|exact E]|]. destruct (IH r0 eq_refl b Hb) as (a' & I & E'). exists a'. split; [right; exact I|exact E'].
Qed.
Lemma parsed_all : forall A B (f : A -> option B) l r, all_parsed (map f l) = Some r <-> Forall2 (fun a b => f a = Some b) l r.
Proof.
  intros A B f. induction l as [|a l IH]; intros r; cbn.
  - split; [intros H; injection H as <-; constructor|intros H; inversion H; reflexivity].
  - destruct (f a) as [b0|] eqn:E.
    + destruct (all_parsed (map f l)) as [r0|] eqn:E0.
      * split; [intros H; injection H as <-; constructor; [exact E|apply IH; reflexivity]|].
        intros H. inversion H as [|? b ? r' H1 H2]; subst. rewrite E in H1. injection H1 as <-. apply IH in H2. injection H2 as <-. reflexivity.
      * split; [discriminate|]. intros H. inversion H as [|? b ? r' H1 H2]; subst. apply IH in H2. discriminate.
    + split; [discriminate|]. intros H. inversion H; congruence.
Qed.

(** The system and its instances are accepted exactly when every one can be read and no instance changes the domain of an access. *)
Theorem C95_accepted : forall given insts t R Rs, init_systems given insts t = Some (R, Rs) <->
  read_text given t = Some R /\ Forall2 (fun g R' => read_text g t = Some R') insts Rs /\
  Forall (fun R' => same_domains (system_kinds R) (system_kinds R')) Rs.
Proof.
  intros given insts t R Rs. unfold init_systems. destruct (read_text given t) as [R0|] eqn:E0; [|split; [discriminate|intros (H & _); discriminate]].
  pose proof (parsed_all _ _ (fun g => read_text g t) insts) as PA. destruct (all_parsed _) as [Rs0|] eqn:E1.
  - assert (Q : Forall2 (fun g R' => read_text g t = Some R') insts Rs0) by (apply PA; reflexivity).
    assert (FB : forallb (fun R' => same_doms_ck (system_kinds R0) (system_kinds R')) Rs0 = true <-> Forall (fun R' => same_domains (system_kinds R0) (system_kinds R')) Rs0).
    { rewrite forallb_forall, Forall_forall. split; intros H R' I; destruct (parsed_in _ _ (fun g => read_text g t) _ _ E1 R' I) as (g & _ & Eg);
        apply (C95_compare _ _ _ _ _ E0 Eg); exact (H R' I). }
    destruct (forallb _ Rs0).
    + split.
      * intros H. injection H as <- <-. split; [reflexivity|]. split; [exact Q|apply FB; reflexivity].
      * intros (H1 & H2 & _). injection H1 as <-. apply PA in H2. injection H2 as <-. reflexivity.
    + split; [discriminate|]. intros (H1 & H2 & H3). injection H1 as <-. apply PA in H2. injection H2 as <-. apply FB in H3. discriminate.
  - split; [discriminate|]. intros (_ & H & _). apply PA in H. discriminate.
Qed.
Print Assumptions C95_accepted.

(** And then every action number is the same action, of the same kind and with the same values, in the system and in every instance. *)
Theorem C95_same_actions : forall given insts t R Rs R', init_systems given insts t = Some (R, Rs) -> In R' Rs ->
  same_numbers (system_kinds R) (system_kinds R').
Proof.
  intros given insts t R Rs R' H I. apply C95_accepted in H. destruct H as (H1 & H2 & H3).
  assert (Q : exists g, read_text g t = Some R').
  { clear - H2 I. induction H2 as [|g S l Ss H F IH]; [destruct I|]. destruct I as [<-|I]; [exists g; exact H|exact (IH I)]. }
  destruct Q as (g & Hg). pose proof (proj1 (Forall_forall _ _) H3 R' I) as SD. cbv beta in SD.
  rewrite <- (same_kinds _ _ (proj1 (read_like _ _ _ _ _ H1 Hg)) SD). repeat split.
Qed.
Print Assumptions C95_same_actions.

(** From the command line on *)
Theorem C95_line : forall line t R Rs, init_line line t = Some (R, Rs) ->
  exists c, read_line line = Some c /\ read_text (given_consts (co_file c)) t = Some R /\
    Forall2 (fun o R' => read_text (given_consts (po_consts o)) t = Some R' /\ same_numbers (system_kinds R) (system_kinds R')) (co_insts c) Rs.
Proof.
  intros line t R Rs H. unfold init_line in H. destruct (read_line line) as [c|]; [|discriminate]. exists c. split; [reflexivity|].
  pose proof (fun R' => C95_same_actions _ _ _ _ _ R' H) as S. apply C95_accepted in H. destruct H as (H1 & H2 & _). split; [exact H1|].
  remember (map (fun o => given_consts (po_consts o)) (co_insts c)) as gs eqn:EG. revert EG S. generalize (co_insts c). clear H1.
  induction H2 as [|g R' gs Rs H2 F IH]; intros l EG S; destruct l as [|o l]; try discriminate; constructor.
  - cbn in EG. injection EG as -> _. split; [exact H2|apply S; left; reflexivity].
  - cbn in EG. injection EG as _ EG. apply IH; [exact EG|]. intros R'' I. apply S. right. exact I.
Qed.
Print Assumptions C95_line.

(** "constant N := 2; constant M := 2; variable x[N] < M; shadow variable y[1] < K; process P[i < N] { read: x[i-1]; write: x[i]; read: y[0]; }" *)
Definition ring_text : ptext := mkPtext
  [ConstInt "N" (SNat 2); ConstInt "M" (SNat 2); ConstInt "K" (SNat 2)]
  [mkVdecl Direct "x" (SName "N") (SName "M"); mkVdecl Shadow "y" (SNat 1) (SName "K")]
  [Kind (mkKdecl "i" (SName "N") None [] [PAccess (ReadAccess, "x", SBin SubOp (SName "i") (SNat 1)); PAccess (WriteAccess, "x", SName "i"); PAccess (ReadAccess, "y", SNat 0)]) []].
Definition one (k : Z) : vtext := mkVtext false (VList [k]).
(** Different numbers of processes are fine; a different domain after -x is not, before it is, and in one -param it is not. *)
Definition accepted (line : list word) : option (nat * list nat) :=
  option_map (fun p => (length (r_doms (fst p)), map (fun R' => length (r_doms R')) (snd p))) (init_line line ring_text).
Example C95_example :
  accepted [WFile; WParam "N" (mkVtext false (VRange 2 4))] = Some (3, [3; 4; 5]) /\
  accepted [WFile; WDef "M" (one 3)] = None /\ accepted [WDef "M" (one 3); WFile] = Some (3, [3]) /\
  accepted [WFile; WParam "M" (one 2); WParam "M" (one 3)] = None /\
  (exists R Rs, init_line [WFile; WParam "N" (mkVtext false (VRange 2 4))] ring_text = Some (R, Rs) /\ actions_in (system_kinds R) = 8 /\
     Forall (fun R' => act_of (system_kinds R') 5 = act_of (system_kinds R) 5) Rs).
Proof.
  split; [vm_compute; reflexivity|]. split; [vm_compute; reflexivity|]. split; [vm_compute; reflexivity|]. split; [vm_compute; reflexivity|].
  assert (H : match init_line [WFile; WParam "N" (mkVtext false (VRange 2 4))] ring_text with
    | Some (R, Rs) => actions_in (system_kinds R) = 8 /\ Forall (fun R' => act_of (system_kinds R') 5 = act_of (system_kinds R) 5) Rs
    | None => False end) by (vm_compute; repeat constructor).
  destruct (init_line _ ring_text) as [(R, Rs)|]; [|contradiction]. exists R, Rs. split; [reflexivity|exact H].
Qed.

(** Finding: the comparison refuses more than it must.  A shadow variable that is read has no part in an action, but its domain may not change. *)
Theorem C95_needed_refuted : ~ (forall g1 g2 t R1 R2, read_text g1 t = Some R1 -> read_text g2 t = Some R2 ->
  same_numbers (system_kinds R1) (system_kinds R2) -> same_doms_ck (system_kinds R1) (system_kinds R2) = true).
Proof.
  intros H.
  set (a := fun K => {| accs := [{| a_type := ReadAccess; a_role := Direct; a_dom := 2 |}; {| a_type := WriteAccess; a_role := Direct; a_dom := 2 |};
                                 {| a_type := ReadAccess; a_role := Shadow; a_dom := K |}]; symms := [] |}).
  assert (Q : match read_text [("K", [2%Z])] ring_text, read_text [("K", [3%Z])] ring_text with
    | Some R1, Some R2 => system_kinds R1 = [a 2] /\ system_kinds R2 = [a 3]
    | _, _ => False end) by (vm_compute; repeat split).
  destruct (read_text [("K", [2%Z])] ring_text) as [R1|] eqn:E1; [|contradiction]. destruct (read_text [("K", [3%Z])] ring_text) as [R2|] eqn:E2; [|contradiction].
  destruct Q as (Q1 & Q2). specialize (H _ _ _ _ _ E1 E2). rewrite Q1, Q2 in H.
  assert (B : same_numbers [a 2] [a 3]).
  { split; [reflexivity|]. split; [intros i; reflexivity|]. split; [intros [[|[|p]] vs]; reflexivity|]. intros i. reflexivity. }
  specialize (H B). vm_compute in H. discriminate.
Qed.
Print Assumptions C95_needed_refuted.
