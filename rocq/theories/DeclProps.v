(** C90: a protocol file means what its statements say. *)
From Coq Require Import String List Arith Bool ZArith Lia.
From Verif Require Import FinLib Radix FmlaModel FmlaSpec FmlaProofs ActModel NetModel IntModel ExprModel ExprSpec ReachSpec CmdModel CmdSpec
  DeclModel DeclSpec DeclProofs DeclProofs2 DeclProofs3 DeclProofs4.
Import ListNotations.
Local Open Scope list_scope.
Local Open Scope string_scope.
Local Open Scope nat_scope.

(** The states that the file assumes are those in which all its assumptions are true: those outside the processes, and those inside,
    for every process of the kind.  An expression means what it means where it stands. *)
Theorem C90_assumed : forall ds consts arrays l Y Ps, inhabited ds -> proper_decls ds consts arrays -> every_item (proper_item ds) (at_first consts arrays) l ->
  read_file consts arrays ds l = Some (Y, Ps) ->
  state_fmla ds (y_assume Y) /\ forall s, ok ds s -> (holds (y_assume Y) s <-> every_item (in_all assumed s) (at_first consts arrays) l).
Proof.
  intros ds consts arrays l Y Ps INH PD PR E.
  destruct (items_spec ds consts arrays INH l _ _ Y Ps (new_fine ds consts arrays PD) PR E) as (H & _ & _ & _ & _ & (S & _)). split; auto.
  intros s K. rewrite (H s K). split; [tauto|]. intros X. split; [reflexivity|auto].
Qed.
Print Assumptions C90_assumed.

(** The same for the legitimate states. *)
Theorem C90_legitimate : forall ds consts arrays l Y Ps, inhabited ds -> proper_decls ds consts arrays -> every_item (proper_item ds) (at_first consts arrays) l ->
  read_file consts arrays ds l = Some (Y, Ps) ->
  state_fmla ds (y_invariant Y) /\ forall s, ok ds s -> (holds (y_invariant Y) s <-> every_item (in_all demanded s) (at_first consts arrays) l).
Proof.
  intros ds consts arrays l Y Ps INH PD PR E.
  destruct (items_spec ds consts arrays INH l _ _ Y Ps (new_fine ds consts arrays PD) PR E) as (_ & H & _ & _ & _ & (_ & S & _)). split; auto.
  intros s K. rewrite (H s K). split; [tauto|]. intros X. split; [reflexivity|auto].
Qed.
Print Assumptions C90_legitimate.

(** The steps of the system are those of the actions of the processes; those of the specification are what it sees of the actions
    that are not of the protocol only. *)
Theorem C90_steps : forall ds consts arrays l Y Ps, inhabited ds -> proper_decls ds consts arrays -> every_item (proper_item ds) (at_first consts arrays) l ->
  read_file consts arrays ds l = Some (Y, Ps) -> forall s t, ok ds s -> ok ds t ->
  (FmlaSpec.steps (t_direct (y_totals Y)) s t <-> some_item (in_some not_shadow s t) (at_first consts arrays) l) /\
  (FmlaSpec.steps (t_shadow (y_totals Y)) s t <-> some_item (in_some_seen not_puppet s t) (at_first consts arrays) l).
Proof.
  intros ds consts arrays l Y Ps INH PD PR E s t S T.
  destruct (items_spec ds consts arrays INH l _ _ Y Ps (new_fine ds consts arrays PD) PR E) as (_ & _ & H1 & H2 & _). split.
  - rewrite (H1 s t S T). split; [intros [X|X]; [discriminate X|auto]|auto].
  - rewrite (H2 s t S T). split; [intros [X|X]; [discriminate X|auto]|auto].
Qed.
Print Assumptions C90_steps.

(** Every process gets what the text of its kind says for its index. *)
Theorem C90_processes : forall ds consts arrays l Y Ps, inhabited ds -> proper_decls ds consts arrays -> every_item (proper_item ds) (at_first consts arrays) l ->
  read_file consts arrays ds l = Some (Y, Ps) -> kinds_say (at_first consts arrays) l Ps.
Proof.
  intros ds consts arrays l Y Ps INH PD PR E.
  destruct (items_spec ds consts arrays INH l _ _ Y Ps (new_fine ds consts arrays PD) PR E) as (_ & _ & _ & _ & H & _). exact H.
Qed.
Print Assumptions C90_processes.

(** A file is accepted if all its expressions have values and all its invariants are of one kind. *)
Theorem C90_accepted : forall ds consts arrays l md, inhabited ds -> proper_decls ds consts arrays -> every_item (proper_item ds) (at_first consts arrays) l ->
  every_item (total_item ds) (at_first consts arrays) l -> (forall md', In md' (modes l) -> md' = md) -> read_file consts arrays ds l <> None.
Proof.
  intros ds consts arrays l md INH PD PR T MD E.
  destruct (items_accept ds consts arrays INH l _ new_sys md (new_fine ds consts arrays PD) PR T) as (YP & E'); auto.
  - intros md' X. discriminate.
  - unfold read_file in E. congruence.
Qed.
Print Assumptions C90_accepted.

(** ... and only if they are. *)
Lemma mode_eq : forall a b : mode, style_eqb (fst a) (fst b) && scope_eqb (snd a) (snd b) = true -> a = b.
Proof. intros ([], []) ([], []) E; try discriminate E; reflexivity. Qed.
Lemma assign_mode : forall Y md Y', assign_legit_mode Y md = Some Y' -> y_mode Y' = Some md /\ (forall md0, y_mode Y = Some md0 -> md0 = md).
Proof.
  intros Y md Y' E. unfold assign_legit_mode in E. destruct (y_mode Y) as [md0|].
  - destruct (style_eqb _ _ && scope_eqb _ _) eqn:B; [|discriminate]. apply mode_eq in B. injection E as <-. split; auto. intros md1 X. congruence.
  - injection E as <-. split; auto. discriminate.
Qed.
Definition one_mode (l : list mode) (Y Y' : sys_state) : Prop :=
  (forall md, In md l -> y_mode Y' = Some md) /\ (forall md, y_mode Y = Some md -> y_mode Y' = Some md).
Lemma one_trans : forall l1 l2 Y1 Y2 Y3, one_mode l1 Y1 Y2 -> one_mode l2 Y2 Y3 -> one_mode (l1 ++ l2) Y1 Y3.
Proof. intros l1 l2 Y1 Y2 Y3 (A & B) (C & D). split; auto. intros md I. apply in_app_or in I. destruct I as [I|I]; auto. Qed.
Lemma inside_mode : forall consts arrays h YP st YP', read_inside consts arrays h YP st = Some YP' -> one_mode (modes_of [st]) (fst YP) (fst YP').
Proof.
  intros consts arrays h (Y, P) st YP' E. destruct st as [x e|e|md e|r a|a|a]; cbn [read_inside] in E.
  - destruct (eval_members _ _ _ _ _ e); [|discriminate]. injection E as <-. split; [intros md []|auto].
  - destruct (eval_members _ _ _ _ _ e); [|discriminate]. injection E as <-. split; [intros md []|auto].
  - destruct (assign_legit_mode Y md) as [Y1|] eqn:EM; [|discriminate]. destruct (eval_members _ _ _ _ _ e); [|discriminate]. injection E as <-.
    destruct (assign_mode _ _ _ EM) as (A & B). cbn. split; [intros md' [<-|[]]; auto|]. cbn. intros md' X. rewrite (B md' X). auto.
  - destruct (add_action _ _ _ _ _ _ _ _ _) as [(mbs, T)|]; [|discriminate]. injection E as <-. split; [intros md []|auto].
  - destruct (permit_action _ _ _ _ _ _ _); [|discriminate]. injection E as <-. split; [intros md []|auto].
  - destruct (forbid_action _ _ _ _ _ _ _); [|discriminate]. injection E as <-. split; [intros md []|auto].
Qed.
Lemma body_mode : forall consts arrays h l YP YP', read_body consts arrays h YP l = Some YP' -> one_mode (modes_of l) (fst YP) (fst YP').
Proof.
  intros consts arrays h l. induction l as [|st l IH]; intros YP YP' E; cbn [read_body] in E.
  - injection E as <-. split; [intros md []|auto].
  - destruct (read_inside consts arrays h YP st) as [YP1|] eqn:E1; [|discriminate].
    pose proof (one_trans _ _ _ _ _ (inside_mode _ _ _ _ _ _ E1) (IH _ _ E)) as H. unfold modes_of in *. cbn [flat_map] in *. rewrite app_nil_r in H. exact H.
Qed.
Lemma outside_mode : forall consts arrays ds Y st Y', read_outside consts arrays ds Y st = Some Y' -> one_mode (modes_of [st]) Y Y'.
Proof.
  intros consts arrays ds Y st Y' E. destruct st as [x e|e|md e|r a|a|a]; cbn [read_outside] in E; try discriminate E.
  - destruct (eval_f _ _ _ _ e) as [(pf, m)|]; [|discriminate]. injection E as <-. split; [intros md []|auto].
  - destruct (eval_f _ _ _ _ e) as [(pf, m)|]; [|discriminate]. injection E as <-. split; [intros md []|auto].
  - destruct (assign_legit_mode Y md) as [Y1|] eqn:EM; [|discriminate]. destruct (eval_f _ _ _ _ e) as [(pf, m)|]; [|discriminate]. injection E as <-.
    destruct (assign_mode _ _ _ EM) as (A & B). cbn. split; [intros md' [<-|[]]; auto|]. cbn. intros md' X. rewrite (B md' X). auto.
Qed.
Lemma items_mode : forall consts arrays ds l Y Y' Ps, read_items consts arrays ds Y l = Some (Y', Ps) -> one_mode (modes l) Y Y'.
Proof.
  intros consts arrays ds l. induction l as [|it l IH]; intros Y Y' Ps E; cbn [read_items] in E.
  - injection E as <- <-. split; [intros md []|auto].
  - unfold modes. cbn [flat_map]. destruct it as [st|h body].
    + destruct (read_outside consts arrays ds Y st) as [Y1|] eqn:E1; [|discriminate]. apply (one_trans _ _ _ Y1); [apply (outside_mode _ _ _ _ _ _ E1)|apply (IH _ _ _ E)].
    + destruct (read_body consts arrays h (Y, new_kind h) body) as [(Y1, P)|] eqn:E1; [|discriminate].
      destruct (read_items consts arrays ds Y1 l) as [(Y2, Ps2)|] eqn:E2; [|discriminate]. cbn in E. injection E as <- <-.
      apply (one_trans _ _ _ Y1); [apply (body_mode _ _ _ _ _ _ E1)|apply (IH _ _ _ E2)].
Qed.
Theorem C90_one_mode : forall ds consts arrays l Y Ps, read_file consts arrays ds l = Some (Y, Ps) -> forall md, In md (modes l) -> y_mode Y = Some md.
Proof. intros ds consts arrays l Y Ps E md I. exact (proj1 (items_mode _ _ _ _ _ _ _ E) md I). Qed.
Print Assumptions C90_one_mode.

(** ** A concrete case *)
(** x[0], x[1] in {0,1}; "predicate Zero := x[0] == 0;"; processes that read x[i-1] and write x[i], with "let k := 1 - i;",
    "predicate Same := x[i-1] == x[i];", "(future & silent) (Same);" and
    "puppet: (!Same && x[i] == k --> x[i] := x[i-1];);" (only process 0 at 1 and process 1 at 0 move); outside
    "(assume & closed) (Zero || x[1] == 1);" and "(future & silent) (Zero);". *)
Definition x_at (i : sexp) : sexp := SAref "x" i.
Definition x_left : sexp := x_at (SBin SubOp (SName "i") (SNat 1)).
Definition x_own : sexp := x_at (SName "i").
Definition decl_kind : pcsymm :=
  {| accs := [{| a_type := ReadAccess; a_role := Direct; a_dom := 2 |}; {| a_type := WriteAccess; a_role := Direct; a_dom := 2 |}]; symms := [] |}.
Definition decl_proc (i : nat) : process := mkProcess 0 [1 - i; i] (Cst true) (Cst false) (Cst false) (Cst false) (Cst false).
Definition decl_net : network := mkNetwork [2; 2] [Direct; Direct] [decl_kind] (map decl_proc [0; 1]).
Definition decl_head : pc_head := mkHead decl_net "i" [("k", [1%Z; 0%Z])] (map (fun i => mkMembr (decl_proc i) i (Z.of_nat i)) [0; 1]).
Definition decl_mode : mode := (FutureAndSilent, DirectInvariant).
Definition decl_consts : list (string * list Z) := [("N", [2%Z])].
Definition decl_arrays : list (string * list nat) := [("x", [0; 1])].
Definition decl_file : list item :=
  [Outside (Predicate "Zero" (SCmp CEq (x_at (SNat 0)) (SNat 0)));
   Inside decl_head [Predicate "Same" (SCmp CEq x_left x_own); Legit decl_mode (SName "Same");
     Act Puppet (mkAction false (SAnd (SNot (SName "Same")) (SCmp CEq x_own (SName "k"))) [ASet "x" (SName "i") (Some x_left)])];
   Outside (Assume (SOr (SName "Zero") (SCmp CEq (x_at (SNat 1)) (SNat 1))));
   Outside (Legit decl_mode (SName "Zero"))].
Example C90_example : inhabited [2; 2] /\ proper_decls [2; 2] decl_consts decl_arrays /\
  every_item (proper_item [2; 2]) (at_first decl_consts decl_arrays) decl_file /\
  match read_file decl_consts decl_arrays [2; 2] decl_file with
  | Some (Y, [P]) =>
      map (fun s => (eval (y_assume Y) (join s s s), eval (y_invariant Y) (join s s s))) [[0; 0]; [0; 1]; [1; 0]; [1; 1]] =
        [(true, true); (true, false); (false, false); (true, false)] /\
      map (fun st => eval (t_direct (y_totals Y)) (join (fst st) (snd st) (fst st))) [([0; 1], [1; 1]); ([0; 1], [0; 0]); ([1; 0], [0; 0]); ([1; 0], [1; 1]); ([0; 0], [0; 0])] =
        [false; false; true; true; false] /\
      map (fun m => map (fun s => eval (mb_invariant m) (join s s s)) [[0; 0]; [0; 1]; [1; 1]]) (k_membs P) = [[true; false; true]; [true; false; true]] /\
      y_mode Y = Some decl_mode
  | _ => False
  end.
Proof.
  split; [repeat constructor|]. split.
  { constructor; cbn.
    - intros x l. destruct (String.eqb x "N"); [|discriminate]. intros E. injection E as <-. discriminate.
    - intros x l. destruct (String.eqb x "x"); [|discriminate]. intros E. injection E as <-. split; [discriminate|repeat constructor].
    - intros x. destruct (String.eqb_spec x "x") as [->|]; [reflexivity|contradiction]. }
  split; [|vm_compute; repeat split; reflexivity].
  cbn [every_item decl_file proper_item]. split; [cbn; auto|]. split; [|split; [cbn; auto|split; [cbn; auto|exact I]]]. split.
  - constructor.
    + reflexivity.
    + constructor.
    + reflexivity.
    + intros m [<-|[<-|[]]]; (constructor; [reflexivity|repeat constructor|vm_compute; constructor; [intros []|constructor]]).
    + intros m [<-|[<-|[]]]; eexists _, _; reflexivity.
    + intros x l [E|[]]. injection E as <- <-. split; reflexivity.
  - constructor; [cbn; auto|]. constructor; [cbn; auto|]. constructor; [|constructor]. split.
    + split; [cbn; auto|]. intros x i e [E|[]]. injection E as <- <- <-. split; [cbn; auto|]. intros e' E. injection E as <-. cbn. auto.
    + intros l1 l2 E. destruct l1 as [|a [|]]; discriminate.
Qed.

(** The file above must be accepted, too. *)
Ltac totally := repeat (cbn;
  match goal with
  | |- _ /\ _ => split
  | |- True => exact I
  | |- forall _, _ => intro
  | H : Some _ = Some _ |- _ => injection H as <-
  | H : None = Some _ |- _ => discriminate H
  | H : ExprSpec.member _ _ = Some _ |- _ => vm_compute in H
  | |- exists l, Some ?x = Some l /\ _ => exists x
  | |- _ <> None => discriminate
  | |- _ = _ => reflexivity
  | |- _ => solve [auto]
  end).
Example C90_example_accepted : every_item (total_item [2; 2]) (at_first decl_consts decl_arrays) decl_file /\
  (forall md', In md' (modes decl_file) -> md' = decl_mode).
Proof.
  split; [|intros md' [<-|[<-|[]]]; reflexivity].
  cbn [every_item decl_file total_item]. split; [totally|]. split; [|split; [totally|split; [totally|exact I]]].
  intros m [<-|[<-|[]]]; cbn [every_stmt total_stmt]; (split; [totally|]); (split; [totally|]); (split; [|exact I]);
    (split; [totally|intros x i e [E|[]]; injection E as <- <- <-; totally]).
Qed.

(** ** Where it does not *)
(** A predicate that a process names as one outside is named: the statements of the process use the one outside. *)
Definition clash : list item :=
  [Outside (Predicate "Good" (SName "true")); Inside decl_head [Predicate "Good" (SCmp CEq x_left x_own); Legit decl_mode (SName "Good")]].
Theorem C90_predicate_refuted : exists consts arrays ds l Y Ps s, inhabited ds /\ proper_decls ds consts arrays /\ read_file consts arrays ds l = Some (Y, Ps) /\ ok ds s /\
  holds (y_invariant Y) s /\ ~ every_item (in_all demanded s) (at_first consts arrays) l.
Proof.
  exists decl_consts, decl_arrays, [2; 2], clash.
  assert (H : match read_file decl_consts decl_arrays [2; 2] clash with Some (Y, _) => eval (y_invariant Y) (join [0; 1] [0; 1] [0; 1]) | None => false end = true) by (vm_compute; reflexivity).
  destruct (read_file decl_consts decl_arrays [2; 2] clash) as [(Y, Ps)|] eqn:E; [|discriminate H].
  exists Y, Ps, [0; 1]. split; [repeat constructor|]. split; [exact (proj1 (proj2 C90_example))|]. split; [reflexivity|].
  split; [repeat constructor|]. split.
  - exact H.
  - intros (_ & H1 & _). specialize (H1 (mkMembr (decl_proc 0) 0 0%Z) (or_introl eq_refl)). clear H E. cbn in H1. destruct H1 as (_ & H1 & _). vm_compute in H1. discriminate H1.
Qed.
Print Assumptions C90_predicate_refuted.
