(** C92: what the declarations of a protocol file make. *)
From Coq Require Import String List Arith Bool ZArith Lia.
From Verif Require Import FinLib Radix ParseModel AccessModel AccessSpec FmlaModel FmlaSpec ActModel NetModel IntModel ExprModel ExprSpec ReachSpec
  CmdModel CmdSpec DeclModel DeclSpec DeclProofs DeclProofs4 DeclProps HeadModel HeadSpec HeadProofs HeadProofs2 HeadProofs3.
Import ListNotations.
Local Open Scope string_scope.
Local Open Scope list_scope.
Local Open Scope nat_scope.

(** A constant has the value that was given for it, or else the one that its first declaration says. *)
Theorem C92_constants : forall given t R, plain_text given t -> read_text given t = Some R ->
  (forall x vals, assoc x given = Some vals -> assoc x (r_consts R) = Some vals) /\
  (forall pre c post, pt_consts t = pre ++ c :: post -> assoc (const_name c) given = None -> ~ In (const_name c) (map const_name pre) ->
     exists vals, const_says (r_consts R) c vals /\ assoc (const_name c) (r_consts R) = Some vals) /\
  (forall x, assoc x (r_consts R) <> None -> assoc x given <> None \/ In x (map const_name (pt_consts t))).
Proof.
  intros given t R PL E. destruct (text_spec given t R PL E) as (EC & _). destruct (consts_spec _ _ _ (px_given _ _ PL) (px_consts _ _ PL) EC) as (_ & M & K & W).
  split; [exact M|]. split; [exact W|]. intros x X. apply K. auto.
Qed.
Print Assumptions C92_constants.

(** Every array has the size, the domain and the role that are declared; every member of every array is one variable of the system, and there
    are no others.  The variables of an array are in order.  A name stands for the last array declared with it. *)
Theorem C92_variables : forall given t R, plain_text given t -> read_text given t = Some R ->
  Forall2 (array_says (r_consts R)) (pt_vbls t) (r_symms R) /\ r_symms R <> [] /\
  exists id, numbered (r_symms R) (r_doms R) (r_roles R) (r_arrays R) id.
Proof. intros given t R PL E. destruct (text_spec given t R PL E) as (_ & A & B & C & _). eauto. Qed.
Print Assumptions C92_variables.

(** Every kind has as many processes as is said, with the indices, the lets, the variables and the accesses that are said. *)
Theorem C92_kinds : forall given t R, plain_text given t -> read_text given t = Some R -> writes_once R ->
  entries_say (r_doms R) (r_roles R) (at_first (r_consts R) (r_arrays R)) (pt_entries t) (r_items R).
Proof. intros given t R PL E ON. apply (file_spec given t R PL E ON). Qed.
Print Assumptions C92_kinds.

(** The conditions of C90 are met by every file. *)
Theorem C92_file : forall given t R, plain_text given t -> read_text given t = Some R -> writes_once R ->
  inhabited (r_doms R) /\ proper_decls (r_doms R) (r_consts R) (r_arrays R) /\
  every_item (proper_item (r_doms R)) (at_first (r_consts R) (r_arrays R)) (r_items R) /\
  read_file (r_consts R) (r_arrays R) (r_doms R) (r_items R) = Some (r_sys R, r_kinds R).
Proof.
  intros given t R PL E ON. destruct (text_spec given t R PL E) as (_ & _ & _ & _ & A & B & _). destruct (file_spec given t R PL E ON) as (C & D & _). auto.
Qed.
Print Assumptions C92_file.

(** So what is assumed, what is legitimate and what the steps are is as the text says. *)
Theorem C92_meaning : forall given t R, plain_text given t -> read_text given t = Some R -> writes_once R ->
  let G := at_first (r_consts R) (r_arrays R) in
  forall s, ok (r_doms R) s ->
  (holds (y_assume (r_sys R)) s <-> every_item (in_all assumed s) G (r_items R)) /\
  (holds (y_invariant (r_sys R)) s <-> every_item (in_all demanded s) G (r_items R)) /\
  forall s', ok (r_doms R) s' ->
  (FmlaSpec.steps (t_direct (y_totals (r_sys R))) s s' <-> some_item (in_some not_shadow s s') G (r_items R)) /\
  (FmlaSpec.steps (t_shadow (y_totals (r_sys R))) s s' <-> some_item (in_some_seen not_puppet s s') G (r_items R)).
Proof.
  intros given t R PL E ON G s S. destruct (C92_file given t R PL E ON) as (A & B & C & D).
  destruct (C90_assumed _ _ _ _ _ _ A B C D) as (_ & H1). destruct (C90_legitimate _ _ _ _ _ _ A B C D) as (_ & H2). split; [apply H1; auto|]. split; [apply H2; auto|].
  intros s' S'. apply (C90_steps _ _ _ _ _ _ A B C D s s' S S').
Qed.
Print Assumptions C92_meaning.

(** ** A concrete case *)
(** "constant N := 5; constant M := N - 1; constant W := (4, N);", read with -def N 3;
    "variable x[N] < M; shadow variable y[1] < 3; puppet variable z[2*N] < W[1];";
    "predicate Zero := x[0] == 0;"; "process P[i in map j < N : 2 - j]" with "let k := i - 1; let n := k + N; read: x[k]; write: x[i]; read: z[n];",
    "(future & silent) (x[k] == x[i]);" and "puppet: (x[k] != x[i] --> x[i] := x[k];);"; "process Q[i < 1]" with "write: y[i];". *)
Definition name (x : string) : sexp := SName x.
Definition head_text : ptext := mkPtext
  [ConstInt "N" (SNat 5); ConstInt "M" (SBin SubOp (name "N") (SNat 1)); ConstList "W" [SNat 4; name "N"]]
  [mkVdecl Direct "x" (name "N") (name "M"); mkVdecl Shadow "y" (SNat 1) (SNat 3); mkVdecl Puppet "z" (SBin MulOp (SNat 2) (name "N")) (SAref "W" (SNat 1))]
  [General (Predicate "Zero" (SCmp CEq (SAref "x" (SNat 0)) (SNat 0)));
   Kind (mkKdecl "i" (name "N") (Some ("j", SBin SubOp (SNat 2) (name "j")))
           [("k", SBin SubOp (name "i") (SNat 1)); ("n", SBin AddOp (name "k") (name "N"))]
           [PAccess (ReadAccess, "x", name "k"); PAccess (WriteAccess, "x", name "i"); PAccess (ReadAccess, "z", name "n")])
        [Legit decl_mode (SCmp CEq (SAref "x" (name "k")) (SAref "x" (name "i")))];
   Kind (mkKdecl "i" (SNat 1) None [] [PAccess (WriteAccess, "y", name "i")]) []].
Definition head_given : list (string * list Z) := [("N", [3%Z])].
Definition head_facts (R : presult) : Prop :=
  r_consts R = [("N", [3]); ("M", [2]); ("W", [4; 3])]%Z /\
  r_arrays R = [("z", [2; 3; 5; 6; 8; 9]); ("y", [0]); ("x", [1; 4; 7])] /\ r_doms R = [3; 2; 3; 3; 2; 3; 3; 2; 3; 3] /\
  r_roles R = [Shadow; Direct; Puppet; Puppet; Direct; Puppet; Puppet; Direct; Puppet; Puppet] /\
  map (fun it => match it with Outside _ => [] | Inside h _ => map (fun m => (m_number m, m_index m, p_vbls (m_pc m))) (h_membs h) end) (r_items R) =
    [[]; [(0, 2%Z, [4; 7; 8]); (1, 1%Z, [1; 4; 6]); (2, 0%Z, [7; 1; 5])]; [(0, 0%Z, [0])]] /\
  map (fun it => match it with Outside _ => [] | Inside h _ => h_lets h end) (r_items R) = [[]; [("n", [4; 3; 2]); ("k", [1; 0; -1])]%Z; []].
Lemma head_read : exists R, read_text head_given head_text = Some R /\ head_facts R /\
  map (fun it => match it with Outside _ => [] | Inside h _ => map (fun m => own_wvbls (h_net h) (m_pc m)) (h_membs h) end) (r_items R) = [[]; [[7]; [4]; [1]]; [[0]]].
Proof.
  assert (H : match read_text head_given head_text with
    | Some R => head_facts R /\ map (fun it => match it with Outside _ => [] | Inside h _ => map (fun m => own_wvbls (h_net h) (m_pc m)) (h_membs h) end) (r_items R) = [[]; [[7]; [4]; [1]]; [[0]]]
    | None => False end) by (vm_compute; repeat split).
  destruct (read_text head_given head_text) as [R|]; [|contradiction]. exists R. split; [reflexivity|exact H].
Qed.
Example C92_example : plain_text head_given head_text /\ exists R, read_text head_given head_text = Some R /\ writes_once R /\ head_facts R.
Proof.
  split.
  - constructor.
    + intros x l. cbn. destruct (String.eqb x "N"); [|discriminate]. intros E. injection E as <-. discriminate.
    + repeat constructor. discriminate.
    + repeat constructor.
    + cbn. intros d [<-|[<-|[<-|[]]]]; cbn; intros [X|[X|[X|[X|[]]]]]; discriminate X.
    + cbn. repeat (split; [repeat constructor; cbn; intuition discriminate|]). exact Logic.I.
  - destruct head_read as (R & E & HF & W). exists R. split; [exact E|]. split; [|exact HF]. intros h l m I M. clear E HF.
    apply (in_map (fun it => match it with Outside _ => [] | Inside h _ => map (fun m => own_wvbls (h_net h) (m_pc m)) (h_membs h) end)) in I. rewrite W in I. cbn [In] in I.
    apply (in_map (fun m => own_wvbls (h_net h) (m_pc m))) in M. destruct I as [I|[I|[I|[]]]]; rewrite <- I in M; cbn in M; try contradiction;
      repeat (destruct M as [M|M]; [rewrite <- M; repeat constructor; cbn; tauto|]); contradiction.
Qed.

(** ** Where it does not *)
(** An array that is declared twice: the variables of the first one stay, and no name stands for them. *)
Definition twice_text : ptext := mkPtext [] [mkVdecl Direct "x" (SNat 1) (SNat 2); mkVdecl Direct "x" (SNat 1) (SNat 3)] [].
Theorem C92_twice_refuted : exists given t R v, plain_text given t /\ read_text given t = Some R /\ v < length (r_doms R) /\
  forall x l, assoc x (r_arrays R) = Some l -> ~ In v l.
Proof.
  exists [], twice_text. eexists. exists 0. split; [|split; [vm_compute; reflexivity|]].
  - constructor; try (repeat constructor; fail); try discriminate. cbn. intros d _ [].
  - cbn. split; [lia|]. intros x l. destruct (String.eqb x "x"); [|discriminate]. intros E. injection E as <-. intros [X|[]]. discriminate X.
Qed.
Print Assumptions C92_twice_refuted.
(** A constant that is declared twice: the second declaration is accepted, and what it says does not hold. *)
Definition again_text : ptext := mkPtext [ConstInt "N" (SNat 2); ConstInt "N" (SNat 3)] [mkVdecl Direct "x" (name "N") (SNat 2)] [].
Theorem C92_again_refuted : exists given t R c, plain_text given t /\ assoc (const_name c) given = None /\ In c (pt_consts t) /\ read_text given t = Some R /\
  ~ exists vals, const_says (r_consts R) c vals /\ assoc (const_name c) (r_consts R) = Some vals.
Proof.
  exists [], again_text. eexists. exists (ConstInt "N" (SNat 3)). split; [|split; [reflexivity|split; [right; left; reflexivity|split; [vm_compute; reflexivity|]]]].
  - constructor; try (repeat constructor; fail); try discriminate. cbn. intros d [<-|[]] [X|[X|[]]]; discriminate X.
  - cbn. intros (vals & (v & V & ->) & E). vm_compute in V. injection V as <-. discriminate E.
Qed.
Print Assumptions C92_again_refuted.
