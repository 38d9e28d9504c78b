(** C94: the instances a command line asks for. *)
From Coq Require Import String List ZArith Bool Lia.
From Verif Require Import ExprModel InstModel InstSpec InstProofs InstProofs2 HeadModel.
Import ListNotations.
Local Open Scope string_scope.
Local Open Scope list_scope.

(** Every -param makes one instance for each combination of the values it goes by, and no other; the last value of a name counts, other options
    are those given before it or in it.  Without -param the whole line makes them. *)
Theorem C94_instances : forall line c, read_line line = Some c ->
  exists asked news, Forall2 says (requests line) asked /\ Forall2 all_combinations asked news /\ co_insts c = concat news.
Proof.
  intros line c H. destruct (line_made line c H) as (ds & news & A & B & C & _). exists ds, news. split; [|split; assumption].
  clear - A. induction A as [|r d rs ds [Q _] A IH]; constructor; assumption.
Qed.
Print Assumptions C94_instances.

(** A line is accepted when each value has a number in it or is in parentheses. *)
Theorem C94_accepted : forall line, read_line line <> None <-> Forall good_text (flat_map word_texts line).
Proof.
  intros line. rewrite <- (read_words_ok line copts0). unfold read_line. destruct (read_words copts0 line); split; congruence.
Qed.
Print Assumptions C94_accepted.

Lemma put_constant_keeps : forall consts k l x val, assoc k consts = Some l -> assoc k (put_constant consts x val) = Some l.
Proof.
  intros consts k l x val H. unfold put_constant. destruct (assoc x consts) eqn:E; [exact H|]. clear E. induction consts as [|(k', v) cs IH]; cbn in H |- *; [discriminate|].
  destruct (String.eqb k k'); [exact H|exact (IH H)].
Qed.
Lemma read_consts_keeps : forall decls consts cs' k l, assoc k consts = Some l -> read_consts consts decls = Some cs' -> assoc k cs' = Some l.
Proof.
  induction decls as [|dc decls IH]; intros consts cs' k l H E; cbn in E; [congruence|].
  destruct (add_constant consts dc) as [c1|] eqn:A; [|discriminate]. apply (IH c1 cs' k l); [|exact E].
  destruct dc as [x e|x es]; cbn in A.
  - destruct (constant_value consts e); cbn in A; inversion A. apply put_constant_keeps. exact H.
  - unfold option_map in A. match type of A with match ?t with _ => _ end = _ => destruct t end; inversion A. apply put_constant_keeps. exact H.
Qed.
(** The file of an instance sees the chosen number, whatever constants it declares. *)
Theorem C94_seen : forall d f o k m decls consts, instance_of d f o -> assoc k (po_consts d) = Some m -> nm_scalar m = true ->
  read_consts (given_consts (po_consts o)) decls = Some consts -> lookup_int (const_file consts) None [] k = Some (f k).
Proof.
  intros d f o k m decls consts [_ H] E Es R. specialize (H k). rewrite E, Es in H. destruct H as (m' & E' & M).
  unfold lookup_int. cbn [assoc const_file f_consts].
  assert (G : assoc k (given_consts (po_consts o)) = Some [f k]) by (unfold given_consts; rewrite (assoc_map _ _ nm_membs), E'; cbn; congruence).
  rewrite (read_consts_keeps _ _ _ _ _ G R). reflexivity.
Qed.
Print Assumptions C94_seen.

(** The file of the system itself sees the values given before the last -x. *)
Theorem C94_file : forall pre post c, read_line (pre ++ WFile :: post) = Some c -> ~ In WFile post -> says_consts (heard pre) (co_file c).
Proof. exact file_says. Qed.
Print Assumptions C94_file.

Lemma push_head : forall qs o l, exists l', fold_left push_values qs (o :: l) = o :: l'.
Proof.
  induction qs as [|(k, m) qs IH]; intros o l; cbn [fold_left]; [exists l; reflexivity|]. unfold push_values. cbn [fst snd].
  destruct (nm_scalar m); cbn [app]; apply IH.
Qed.
Lemma quiet_consts : forall post c c', Forall quiet post -> read_words c post = Some c' -> po_consts (co_def c') = po_consts (co_def c).
Proof.
  induction post as [|w post IH]; intros c c' Q E; cbn in E; [congruence|]. inversion Q as [|? ? Q1 Q2]; subst.
  destruct w; try contradiction. cbn in E. rewrite (IH _ _ Q2 E). cbn. destruct (co_def c), s; reflexivity.
Qed.
Lemma no_params_insts : forall line c c', no_params line -> read_words c line = Some c' -> co_insts c' = co_insts c.
Proof.
  induction line as [|w line IH]; intros c c' Q E; cbn in E; [congruence|]. destruct (read_word c w) as [c1|] eqn:D; [|discriminate].
  rewrite (IH _ _ (fun x Hx => Q x (or_intror Hx)) E). pose proof (Q w (or_introl eq_refl)) as Qw. destruct w; cbn in D; try contradiction.
  - destruct (define k v (co_def c)); cbn in D; inversion D; reflexivity.
  - inversion D; reflexivity.
  - inversion D; reflexivity.
Qed.
(** If no value follows -x and there is no -param, every name stands for the same number in the system and in its first instance. *)
Theorem C94_first : forall pre post c, read_line (pre ++ WFile :: post) = Some c -> Forall quiet post -> no_params pre ->
  exists o insts, co_insts c = o :: insts /\
    forall k, plain_value k (given_consts (co_file c)) = plain_value k (given_consts (po_consts o)).
Proof.
  intros pre post c H Q NP. destruct (read_line_file _ _ H) as (c0 & E & F).
  assert (NP' : no_params (pre ++ WFile :: post)).
  { intros w Hw. apply in_app_or in Hw. destruct Hw as [Hw|[Hw|Hw]]; [exact (NP w Hw)|subst w; exact I|].
    pose proof (proj1 (Forall_forall _ _) Q w Hw) as Qw. destruct w; try contradiction; exact I. }
  pose proof (no_params_insts _ _ _ NP' E) as EI. cbn in EI. unfold read_line in H. rewrite E, EI in H. inversion H; subst c. clear H.
  cbn [co_insts co_file]. unfold push_instances. cbn [app].
  destruct (push_head (po_consts (co_def c0)) (first_instance (co_def c0)) []) as (l' & EL). exists (first_instance (co_def c0)), l'. split; [exact EL|].
  intros k. rewrite read_words_app in E. destruct (read_words copts0 pre) as [c1|] eqn:P; [|discriminate]. cbn in E.
  assert (NF : ~ In WFile post) by (intros I; pose proof (proj1 (Forall_forall _ _) Q WFile I) as X; exact X).
  rewrite (file_kept _ _ _ E NF). pose proof (quiet_consts _ _ _ Q E) as EC. cbn [co_def co_file] in EC |- *. rewrite <- EC.
  unfold first_instance, plain_value, given_consts. rewrite with_consts_consts, !(assoc_map _ _ nm_membs), (assoc_map _ _ cut).
  destruct (assoc k (po_consts (co_def c0))) as [m|]; cbn; [|reflexivity]. unfold cut. destruct (nm_scalar m); [|reflexivity]. cbn. destruct (nm_membs m); reflexivity.
Qed.
Print Assumptions C94_first.

(** A word that is not understood in a -param changes nothing. *)
Theorem C94_unknown : forall pre own w own' post,
  read_line (pre ++ WParams (own ++ PUnknown w :: own') :: post) = read_line (pre ++ WParams (own ++ own') :: post).
Proof.
  intros pre own w own' post. unfold read_line. rewrite !read_words_app. destruct (read_words copts0 pre) as [c|]; [|reflexivity].
  cbn [read_words read_word]. replace (param_words (co_def c) (own ++ PUnknown w :: own')) with (param_words (co_def c) (own ++ own')); [reflexivity|].
  generalize (co_def c). induction own as [|[k v|s| |u] own IH]; intros o; cbn; auto. destruct (define k v o); auto.
Qed.
Print Assumptions C94_unknown.

(** The constants written for an instance stand for the same numbers when they are read again, if they are used without an index. *)
Theorem C94_written : forall line c o k, read_line line = Some c -> In o (co_insts c) ->
  plain_value k (written_consts (po_consts o)) = plain_value k (given_consts (po_consts o)).
Proof.
  intros line c o k H Ho. pose proof (line_written _ _ _ H Ho k) as W. unfold plain_value, written_consts, given_consts.
  rewrite (assoc_map _ _ nm_shown), (assoc_map _ _ nm_membs). destruct (assoc k (po_consts o)) as [m|]; cbn; [exact (W m eq_refl)|reflexivity].
Qed.
Print Assumptions C94_written.

Definition range (b e : Z) : vtext := mkVtext false (VRange b e).
(** Finding: the text of a constant is not cut with its numbers: the instance N = 3 of "-def N 3..5" writes "constant N := (3,4,5)". *)
Theorem C94_written_refuted : ~ (forall line c o, read_line line = Some c -> In o (co_insts c) ->
  written_consts (po_consts o) = given_consts (po_consts o)).
Proof.
  intros H. set (line := [WDef "N" (range 3 5); WFile]).
  destruct (read_line line) as [c|] eqn:E; [|vm_compute in E; discriminate].
  specialize (H line c (nth 0 (co_insts c) popt0) E). vm_compute in E. inversion E; subst c. cbn in H. specialize (H (or_introl eq_refl)). discriminate.
Qed.
Print Assumptions C94_written_refuted.

(** Two values of N and two of M, a list L, options before and in the -param; a -def after it that it does not hear. *)
Definition line1 : list word :=
  [WDef "N" (range 4 3); WSet Synchronous; WFile;
   WParams [PDef "M" (range 1 2); PNoPartial; PUnknown "-no-partal"; PDef "L" (mkVtext true (VList [7; 8]%Z))]; WDef "N" (range 9 9)].
Definition plain_of (o : popt) : list (string * list Z) := given_consts (po_consts o).
Example C94_example :
  (exists c, read_line line1 = Some c /\
    map plain_of (co_insts c) =
      [[("L", [7; 8]%Z); ("M", [1]%Z); ("N", [4]%Z)]; [("L", [7; 8]%Z); ("M", [2]%Z); ("N", [4]%Z)];
       [("L", [7; 8]%Z); ("M", [1]%Z); ("N", [3]%Z)]; [("L", [7; 8]%Z); ("M", [2]%Z); ("N", [3]%Z)]] /\
    map po_partial (co_insts c) = [false; false; false; false] /\ map po_sync (co_insts c) = [true; true; true; true] /\
    given_consts (co_file c) = [("N", [4; 3]%Z)]) /\
  requests line1 = [[PDef "N" (range 4 3); PSet Synchronous; PDef "M" (range 1 2); PNoPartial; PUnknown "-no-partal"; PDef "L" (mkVtext true (VList [7; 8]%Z))]] /\
  requests [WFile; WSet Uniring] = [[PSet Uniring]] /\
  (exists c, read_line [WFile; WSet Uniring] = Some c /\ List.length (co_insts c) = 1) /\
  read_line [WDef "N" (mkVtext false (VList []))] = None /\
  numbers (range 4 2) [4; 3; 2]%Z /\ ~ numbers (range 4 2) [4; 3]%Z.
Proof.
  split; [eexists; split; [vm_compute; reflexivity|vm_compute; auto]|]. split; [reflexivity|]. split; [reflexivity|].
  split; [eexists; split; [vm_compute; reflexivity|reflexivity]|]. split; [reflexivity|]. split.
  - split; [reflexivity|]. intros [|[|[|i]]] Hi; cbn in Hi |- *; try reflexivity; lia.
  - intros [H _]. discriminate.
Qed.
