(** C72: a process accesses the variables it declares, and the output file declares them again. *)
From Coq Require Import String List Arith Bool ZArith Lia.
From Verif Require Import FmlaModel FmlaSpec IntModel ExprModel ExprSpec ActModel NetModel CmdModel CmdSpec ParseModel ParseSpec ParseProofs3
  AccessModel AccessSpec AccessProofs AccessProofs2.
Import ListNotations.
Local Open Scope string_scope.
Local Open Scope list_scope.

(** The variables that the processes of a kind get are the declared ones, in the order of the declarations, variable by variable
    and link by link in a block, whatever the state. *)
Theorem C72_accessed : forall ds F idx lets preds (G : nat -> scope) decls sls ms ms', inhabited ds ->
  Forall (plain_decl idx) decls ->
  Forall (fun d => declares ds F (Some (mkUse lets preds (d_number d) [])) (G (d_number d))) ms ->
  all_slots decls = Some sls -> add_accesses ds F idx lets preds ms sls = Some ms' ->
  Forall2 (fun d d' => d_number d' = d_number d /\ d_index d' = d_index d /\
    exists vs, d_vbls d' = d_vbls d ++ vs /\
    forall s, ok ds s -> flat_map (accessed (G (d_number d)) [(idx, d_index d)] s) decls =
      map (fun slv => (sl_type (fst slv), sl_array (fst slv), Some (snd slv))) (combine sls vs) /\ length vs = length sls) ms ms'.
Proof.
  intros ds F idx lets preds G decls sls ms ms' INH P D A AA. destruct (declared_exists decls) as [l L].
  destruct (declared_slots idx decls l L P) as (sls' & A' & F2). rewrite A in A'. injection A' as <-.
  pose proof (accesses_mean ds INH F idx lets preds G l sls (declared_plain idx decls l L P) F2 ms ms' D AA) as H.
  eapply f2_impl; [|exact H]. intros d d' (E1 & E2 & vs & E3 & E4). split; auto. split; auto. exists vs. split; auto. intros s OK. destruct (E4 s OK) as [E5 E6].
  rewrite (accessed_declared (G (d_number d)) idx (d_index d) s decls l L P). clear - F2 E5 E6. revert vs E5 E6. 
  induction F2 as [|[[[t x] i] L] sl l sls S F2 IH]; intros vs E5 E6; inversion E6 as [|? v ? vs' C Q]; subst; [split; reflexivity|]. cbn [map combine fst snd length] in *. injection E5 as E5 E5'.
  destruct (IH vs' E5' Q) as [H1 H2]. split; [|congruence]. rewrite H1, E5. f_equal. unfold slot_of in S. destruct (expanded false L i); [|discriminate]. destruct (expanded true L i); [|discriminate]. injection S as <-. reflexivity.
Qed.
Print Assumptions C72_accessed.

(** The lets of such declarations come to an end. *)
Theorem C72_expands : forall idx decls, Forall (plain_decl idx) decls -> exists sls, all_slots decls = Some sls.
Proof.
  intros idx decls P. destruct (declared_exists decls) as [l L]. destruct (declared_slots idx decls l L P) as (sls & A & _). eauto.
Qed.
Print Assumptions C72_expands.

(** The kind of process has the declared accesses and the declared symmetric blocks: C39 and C40 are about it. *)
Theorem C72_kind : forall ds roles F idx decls sls, Forall (plain_decl idx) decls -> all_slots decls = Some sls ->
  map (slot_access ds roles F) sls = accs (declare (map (kind_decl ds roles F) decls)).
Proof.
  intros ds roles F idx decls sls P A. destruct (declared_exists decls) as [l L]. destruct (declared_slots idx decls l L P) as (sls' & A' & F2). rewrite A in A'. injection A' as <-.
  apply kind_slots with (l := l); auto.
Qed.
Print Assumptions C72_kind.

(** Declarations that were read are written so that they are read again, whatever follows them. *)
Theorem C72_text : forall preds ts r decls sls rest, read_vbls preds ts = (decls, r) -> Forall apart_decl decls ->
  all_slots decls = Some sls -> take_decl preds rest = None ->
  read_vbls preds (written_vbls decls sls ++ rest) = (decls, rest).
Proof.
  intros preds ts r decls sls rest R AP A T. pose proof (read_vbls_raw preds ts decls r R) as RW. pose proof (slots_fit preds decls sls A RW) as FI.
  assert (N : Forall (nice_decl preds) decls /\ Forall full decls).
  { clear - RW FI AP. induction decls as [|d decls IH]; [split; constructor|]. inversion RW; inversion FI; inversion AP; subst. destruct (nice_of_raw preds d) as [N1 N2]; auto.
    destruct IH as [I1 I2]; auto. }
  destruct N as [N1 N2]. rewrite written_decls by auto. apply vbls_back; auto.
Qed.
Print Assumptions C72_text.

(** The text by which the output file names an access in an action (`x[index]`) names its variable: for declarations that were
    read, if the values of every block are tight or its indices are just names. *)
Theorem C72_names : forall ds F idx lets dpreds (G : nat -> scope) preds ts r decls sls ms ms', inhabited ds ->
  read_vbls preds ts = (decls, r) -> Forall (plain_decl idx) decls -> Forall tight_decl decls ->
  Forall (fun d => declares ds F (Some (mkUse lets dpreds (d_number d) [])) (G (d_number d))) ms ->
  all_slots decls = Some sls -> add_accesses ds F idx lets dpreds ms sls = Some ms' ->
  Forall2 (fun d d' => exists vs, d_vbls d' = d_vbls d ++ vs /\
    Forall2 (fun sl v => exists e, read_expr preds (print (sl_text sl)) = Some e /\
      forall s, ok ds s -> cell (G (d_number d)) [(idx, d_index d)] (sl_array sl) e s = Some v) sls vs) ms ms'.
Proof.
  intros ds F idx lets dpreds G preds ts r decls sls ms ms' INH R P T D A AA. pose proof (read_vbls_raw preds ts decls r R) as RW. destruct (declared_exists decls) as [l L].
  destruct (declared_slots idx decls l L P) as (sls' & A' & F2). rewrite A in A'. injection A' as <-.
  pose proof (declared_plain idx decls l L P) as PP. pose proof (declared_readable preds decls l L RW T) as RP.
  pose proof (accesses_mean ds INH F idx lets dpreds G l sls PP F2 ms ms' D AA) as H.
  eapply f2_impl; [|exact H]. intros d d' (E1 & E2 & vs & E3 & E4). exists vs. split; auto.
  assert (X0 : exists s0, ok ds s0) by (exists (map (fun _ => 0) ds); clear - INH; induction INH; constructor; auto). destruct X0 as [s0 OK0].
  assert (X : forall s, ok ds s -> Forall2 (fun sl v => cell (G (d_number d)) [(idx, d_index d)] (sl_array sl) (sl_index sl) s = Some v) sls vs) by (intros; apply E4; auto).
  clear - F2 PP RP X OK0. revert vs X. induction F2 as [|rl sl l sls S F2 IH]; intros vs X.
  - specialize (X s0 OK0). inversion X; subst. constructor.
  - inversion PP; inversion RP; subst. pose proof (X s0 OK0) as Y. inversion Y as [|? v ? vs' C Q]; subst. constructor.
    + destruct rl as [rr L]. destruct (text_back preds rr L sl) as [T1 T2]; auto. exists (sl_text sl). split; auto. intros s OK. specialize (X s OK). inversion X; subst. rewrite T1. auto.
    + apply IH; auto. intros s OK. specialize (X s OK). inversion X; auto.
Qed.
Print Assumptions C72_names.

(** ** Where they are not *)
Definition ring_text (index : list tok) : list tok :=
  TWord "symmetric" :: TId "j" :: TIn :: TWord "{#" :: TId "i" :: TMinus :: TNat 1 :: TComma :: TId "i" :: TPlus :: TNat 1 :: TWord "#}" :: TWord "{" ::
  TWord "read:" :: TId "x" :: TLb :: index ++ [TRb; TSemi; TWord "}"; TWord "write:"; TId "x"; TLb; TId "i"; TRb; TSemi; TWord "puppet:"].
Definition loop_text : list tok :=
  [TWord "symmetric"; TId "i"; TIn; TWord "{#"; TId "i"; TMinus; TNat 1; TWord "#}"; TWord "{"; TWord "read:"; TId "x"; TLb; TId "i"; TRb; TSemi; TWord "}"].
(** `symmetric i <- {# i-1 #} { read: x[i]; }`: looking up i leads back to i, at any depth. *)
Theorem C72_circular_refuted : exists names vals x i e, read_vbls [] loop_text = ([PLinks names [vals] [(x, i, e)]], []) /\ length names = length vals /\
  forall n text, expand n text (combine names vals) true e = None.
Proof.
  exists ["i"], [SBin SubOp (SName "i") (SNat 1)], ReadAccess, "x", (SName "i"). split; [vm_compute; reflexivity|]. split; [reflexivity|].
  assert (H : forall n text, expand n text [("i", SBin SubOp (SName "i") (SNat 1))] true (SName "i") = None).
  { induction n; intros text; [reflexivity|]. cbn. specialize (IHn text). destruct n; [reflexivity|]. rewrite expand_bin, IHn. reflexivity. }
  exact H.
Qed.
Print Assumptions C72_circular_refuted.

Definition five : list (string * list nat) := [("x", [0; 1; 2; 3; 4])].
Definition five_file : file := mkFile [] five [].
Definition five_scope : scope := mkScope [] [] [] five [].
Lemma five_declares : forall n, declares [2; 2; 2; 2; 2] five_file (Some (mkUse [] [] n [])) five_scope.
Proof.
  intros n. constructor; cbn; auto; try discriminate; try solve [constructor].
  all: intros y vs; destruct (String.eqb y "x"); [|discriminate]; intros E; injection E as <-; split; [discriminate|]; repeat constructor.
Qed.
(** With the index 2*j in such a block, an action of the output file has x[2*i-1] where the process reads x[2*(i-1)]. *)
Theorem C72_names_refuted : exists decls sls r d d' sl v e w,
  read_vbls [] (ring_text [TNat 2; TMul; TId "j"]) = (decls, r) /\ Forall (plain_decl "i") decls /\ Forall apart_decl decls /\
  (forall n, declares [2; 2; 2; 2; 2] five_file (Some (mkUse [] [] n [])) five_scope) /\
  all_slots decls = Some sls /\ add_accesses [2; 2; 2; 2; 2] five_file "i" [] [] [d] sls = Some [d'] /\
  d_vbls d = [] /\ nth_error sls 0 = Some sl /\ nth_error (d_vbls d') 0 = Some v /\ read_expr [] (print (sl_text sl)) = Some e /\
  forall s, cell five_scope [("i", d_index d)] (sl_array sl) e s = Some w /\ w <> v.
Proof.
  eexists _, _, _, (mkDraft 0 1 []), _, _, _, _, _. split; [vm_compute; reflexivity|]. split; [|split; [|split; [exact five_declares|split; [vm_compute; reflexivity|split; [vm_compute; reflexivity|split; [reflexivity|split; [vm_compute; reflexivity|split; [vm_compute; reflexivity|split; [vm_compute; reflexivity|]]]]]]]]].
  - constructor; [|constructor; [exact I|constructor]]. split; [repeat constructor; intros []|]. split; [intros [E|[]]; discriminate|].
    assert (NJ : forall y, "i" = y \/ False -> ~ ("j" = y \/ False)) by (intros y [<-|[]] [E|[]]; discriminate).
    split; repeat constructor; exact NJ.
  - repeat constructor; cbn; auto.
  - intros s. split; [vm_compute; reflexivity|discriminate].
Qed.
Print Assumptions C72_names_refuted.

(** A ring of five: each process reads its neighbours in a block and writes its own variable; the text is the same again; names are read back. *)
Example C72_example : exists decls sls ms,
  read_vbls [] (ring_text [TId "j"]) = (decls, [TWord "puppet:"]) /\ Forall (plain_decl "i") decls /\ Forall apart_decl decls /\ Forall tight_decl decls /\
  all_slots decls = Some sls /\
  add_accesses [2; 2; 2; 2; 2] five_file "i" [] [] [mkDraft 0 0 []; mkDraft 1 1 []; mkDraft 2 2 []; mkDraft 3 3 []; mkDraft 4 4 []] sls = Some ms /\
  map d_vbls ms = [[4; 1; 0]; [0; 2; 1]; [1; 3; 2]; [2; 4; 3]; [3; 0; 4]] /\
  written_vbls decls sls ++ [TWord "puppet:"] = ring_text [TId "j"] /\ take_decl [] [TWord "puppet:"] = None.
Proof.
  eexists _, _, _. split; [vm_compute; reflexivity|]. split; [|split; [|split; [|split; [vm_compute; reflexivity|split; [vm_compute; reflexivity|split; [vm_compute; reflexivity|split; vm_compute; reflexivity]]]]]].
  - constructor; [|constructor; [exact I|constructor]]. split; [repeat constructor; intros []|]. split; [intros [E|[]]; discriminate|].
    assert (NJ : forall y, "i" = y \/ False -> ~ ("j" = y \/ False)) by (intros y [<-|[]] [E|[]]; discriminate).
    split; repeat constructor; exact NJ.
  - repeat constructor; cbn; auto.
  - constructor; [right; repeat constructor|constructor; [exact I|constructor]].
Qed.
