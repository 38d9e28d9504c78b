(** C68: the expressions of a protocol file mean what they say. *)
From Coq Require Import String List Arith Bool ZArith Lia.
From Verif Require Import FinLib Radix FmlaModel FmlaSpec FmlaProofs FmlaProofs2 FmlaProofs4
  IntModel IntSpec IntProofs IntProps ExprModel ExprSpec ExprProofs ExprProofs2.
Import ListNotations.
Local Open Scope list_scope.
Local Open Scope string_scope.

Lemma keys : forall (b : imap) x, assoc x b <> None -> In x (map fst b).
Proof.
  induction b as [|(y, v) b IH]; intros x H; cbn in *; [contradiction|]. destruct (String.eqb_spec x y); auto.
Qed.

(** An accepted predicate holds in exactly the states where its meaning is true; it has a meaning in all of them. *)
Theorem C68_predicate : forall ds F P G b e pf b', inhabited ds -> declares ds F P G ->
  fresh_indices (map fst b) e -> eval_f ds F P b e = Some (pf, b') ->
  state_fmla ds pf /\
  (forall s, ok ds s -> exists v, truth G b e s = Some v /\ (holds pf s <-> v = true)) /\
  (forall x, assoc x b' = assoc x b).
Proof.
  intros ds F P G b e pf b' INH D FR E.
  destruct (sound ds INH F P G D e b b (map fst b) (fun x => eq_refl) (keys b) FR) as (H & _).
  destruct (H _ _ E) as (M & (ST & T)). split; [apply static_iff; auto|]. split; auto.
  intros s S. exists (eval pf (join s s s)). split; [auto|]. unfold holds, meaning. tauto.
Qed.
Print Assumptions C68_predicate.

(** The same for integers. *)
Theorem C68_integer : forall ds F P G b e z b', inhabited ds -> declares ds F P G ->
  fresh_indices (map fst b) e -> eval_i ds F P b e = Some (z, b') ->
  exists f, represents ds z f /\ (forall s, ok ds s -> value_of G b e s = Some (f s)) /\
  (forall x, assoc x b' = assoc x b).
Proof.
  intros ds F P G b e z b' INH D FR E.
  destruct (sound ds INH F P G D e b b (map fst b) (fun x => eq_refl) (keys b) FR) as (_ & H).
  destruct (H _ _ E) as (M & (TB & V)). exists (entry z). split; [split; auto|]. split; auto.
Qed.
Print Assumptions C68_integer.

(** An expression all of whose parts have a value in every state is accepted. *)
Theorem C68_accepted : forall ds F P G b e, inhabited ds -> declares ds F P G -> fresh_indices (map fst b) e ->
  let can_read v := match P with Some u => In v (u_rvbls u) | None => True end in
  (total_b ds G can_read b e -> eval_f ds F P b e <> None) /\ (total_i ds G can_read b e -> eval_i ds F P b e <> None).
Proof.
  intros ds F P G b e INH D FR can_read.
  destruct (accepts ds INH F P G D e b b (map fst b) (fun x => eq_refl) (keys b) FR) as (H1 & H2). split; intros T.
  - destruct (H1 T) as (pf & m & ->). discriminate.
  - destruct (H2 T) as (z & m & -> & _). discriminate.
Qed.
Print Assumptions C68_accepted.

(** What a process evaluates depends only on the variables it reads, if the named predicates do. *)
Theorem C68_access : forall ds F u G b e pf b', inhabited ds -> declares ds F (Some u) G ->
  (forall x q, lookup_pfmla F (Some u) x = Some q -> forall s t, ok ds s -> ok ds t ->
     (forall v, In v (u_rvbls u) -> nth v s 0 = nth v t 0) -> (holds q s <-> holds q t)) ->
  fresh_indices (map fst b) e -> eval_f ds F (Some u) b e = Some (pf, b') ->
  forall s t, ok ds s -> ok ds t -> (forall v, In v (u_rvbls u) -> nth v s 0 = nth v t 0) -> (holds pf s <-> holds pf t).
Proof.
  intros ds F u G b e pf b' INH D LOC FR E s t S T A.
  destruct (access ds INH F (Some u) G D u eq_refl) with (e := e) (m := b) (b := b) (used := map fst b) as (H & _); auto.
  - intros x q L s' t' S' T' A'. apply iff_eqb. exact (LOC x q L s' t' S' T' A').
  - intros x. reflexivity.
  - apply keys.
  - unfold holds, meaning. rewrite (H _ _ E s t S T A). tauto.
Qed.
Print Assumptions C68_access.

(** ** Where it does not *)
(** A quantifier that uses the name of an outer one removes it: then a constant of that name is used. *)
Definition with_constant : file := mkFile [("i", [7%Z])] [("x", [0])] [].
Definition its_scope : scope := mkScope [] [] [("i", [7%Z])] [("x", [0])] [].
Lemma with_constant_declares : declares [2] with_constant None its_scope.
Proof.
  constructor; cbn; auto.
  - intros x l. destruct (String.eqb x "i"); [|discriminate]. intros E. injection E as <-. discriminate.
  - intros x l. destruct (String.eqb x "x"); [|discriminate]. intros E. injection E as <-. split; [discriminate|]. repeat constructor.
  - constructor.
  - intros x H. contradiction.
  - intros x H. destruct (String.eqb_spec x "x") as [E|]; [rewrite E; reflexivity|contradiction].
Qed.
Definition rebinding : sexp :=
  SQuant QForall "i" (SNat 2) (SAnd (SBool (SQuant QExists "i" (SNat 1) (SName "true"))) (SCmp CEq (SName "i") (SNat 7))).
Theorem C68_rebinding_refuted : exists ds F G e, inhabited ds /\ declares ds F None G /\
  (forall s, ok ds s -> truth G [] e s = Some false) /\
  exists pf b, eval_f ds F None [] e = Some (pf, b) /\ forall s, ok ds s -> holds pf s.
Proof.
  exists [2], with_constant, its_scope, rebinding. split; [repeat constructor|]. split; [exact with_constant_declares|]. split.
  - intros s _. reflexivity.
  - eexists _, _. split; [vm_compute; reflexivity|]. intros s _. reflexivity.
Qed.
Print Assumptions C68_rebinding_refuted.

(** A guard does not protect a division: the file is refused although the expression has a meaning in every state. *)
Definition guarded : sexp :=
  SAnd (SCmp CNe (SAref "x" (SNat 0)) (SNat 0)) (SCmp CEq (SBin DivOp (SNat 1) (SAref "x" (SNat 0))) (SNat 1)).
Theorem C68_guarded_refuted : exists ds F G e, inhabited ds /\ declares ds F None G /\
  (forall s, ok ds s -> truth G [] e s <> None) /\ eval_f ds F None [] e = None.
Proof.
  exists [2], with_constant, its_scope, guarded. split; [repeat constructor|]. split; [exact with_constant_declares|]. split.
  - intros s S. inversion S as [|x d s' ds' X S']; subst. inversion S'; subst. destruct x as [|[|x]]; [discriminate|discriminate|lia].
  - vm_compute. reflexivity.
Qed.
Print Assumptions C68_guarded_refuted.

(** A constant hides the let of a process that has its name. *)
Theorem C68_let_refuted : forall ds c v, let F := mkFile [("N", [c])] [] [] in let u := mkUse [("N", [v])] [] 0 [] in
  eval_i ds F (Some u) [] (SName "N") = Some (of_int c, []) /\
  int_named (mkScope [("N", v)] [] [("N", [c])] [] []) [] "N" = Some v.
Proof. intros ds c v F u. split; reflexivity. Qed.
Print Assumptions C68_let_refuted.

(** A process may use a predicate over variables that it does not read. *)
Theorem C68_access_refuted : exists ds F u G e pf b, inhabited ds /\ declares ds F (Some u) G /\
  eval_f ds F (Some u) [] e = Some (pf, b) /\
  exists s t, ok ds s /\ ok ds t /\ (forall v, In v (u_rvbls u) -> nth v s 0 = nth v t 0) /\ holds pf s /\ ~ holds pf t.
Proof.
  exists [2; 2], (mkFile [] [("x", [0; 1])] [("p", eqc_PFmlaVbl [2; 2] 1 0)]), (mkUse [] [] 0 [0]),
    (mkScope [] [] [] [("x", [0; 1])] [("p", fun s => Nat.eqb (nth 1 s 0) 0)]), (SName "p"), (eqc_PFmlaVbl [2; 2] 1 0), [].
  split; [repeat constructor|]. split; [|split; [reflexivity|]].
  - constructor; cbn; auto; try discriminate.
    + intros x l. destruct (String.eqb x "x"); [|discriminate]. intros E. injection E as <-. split; [discriminate|]. repeat constructor.
    + constructor; [|constructor]. cbn. split; auto. split.
      * intros a i a' i' p A I A' I' S. inversion S as [|x d s' ds' X S']; subst. inversion S' as [|y d s'' ds'' Y S'']; subst. inversion S''; subst.
        inversion A as [|? ? ? ? ? A1]; subst. inversion A1 as [|? ? ? ? ? A2]; subst. inversion A2; subst.
        inversion I as [|? ? ? ? ? I1]; subst. inversion I1 as [|? ? ? ? ? I2]; subst. inversion I2; subst.
        inversion A' as [|? ? ? ? ? B1]; subst. inversion B1 as [|? ? ? ? ? B2]; subst. inversion B2; subst.
        inversion I' as [|? ? ? ? ? J1]; subst. inversion J1 as [|? ? ? ? ? J2]; subst. inversion J2; subst. reflexivity.
      * intros s S. inversion S as [|x d s' ds' X S']; subst. inversion S' as [|y d s'' ds'' Y S'']; subst. inversion S''; subst. reflexivity.
    + constructor.
    + constructor.
    + intros x H. contradiction.
  - exists [0; 0], [0; 1]. split; [repeat constructor|]. split; [repeat constructor|]. split; [|split].
    + intros v [<-|[]]. reflexivity.
    + reflexivity.
    + discriminate.
Qed.
Print Assumptions C68_access_refuted.

(** ** A concrete case *)
(** [forall i < 2 : x[i] == L[i]-1 ==> x[i+1] < x[2]] with three variables and the constants L := (1,2). *)
Definition some_file : file := mkFile [("L", [1%Z; 2%Z])] [("x", [0; 1; 2])] [].
Definition some_scope : scope := mkScope [] [] [("L", [1%Z; 2%Z])] [("x", [0; 1; 2])] [].
Definition some_expr : sexp :=
  SQuant QForall "i" (SNat 2)
    (SImp (SCmp CEq (SAref "x" (SName "i")) (SBin SubOp (SAref "L" (SName "i")) (SNat 1)))
          (SCmp CLt (SAref "x" (SBin AddOp (SName "i") (SNat 1))) (SAref "x" (SNat 2)))).
Example C68_example : inhabited [2; 2; 3] /\ declares [2; 2; 3] some_file None some_scope /\ fresh_indices [] some_expr /\
  total_b [2; 2; 3] some_scope (fun _ => True) [] some_expr /\
  exists pf b, eval_f [2; 2; 3] some_file None [] some_expr = Some (pf, b) /\
  map (fun s => (eval pf (join s s s), truth some_scope [] some_expr s)) [[0; 0; 1]; [0; 1; 1]; [1; 0; 0]; [1; 1; 2]] =
  [(true, Some true); (false, Some false); (true, Some true); (false, Some false)].
Proof.
  split; [repeat constructor|]. split; [|split; [|split]].
  - constructor; cbn; auto; try discriminate.
    + intros x l. destruct (String.eqb x "L"); [|discriminate]. intros E. injection E as <-. discriminate.
    + intros x l. destruct (String.eqb x "x"); [|discriminate]. intros E. injection E as <-. split; [discriminate|]. repeat constructor.
    + constructor.
    + intros x H. contradiction.
    + intros x H. destruct (String.eqb_spec x "x") as [E|]; [rewrite E; reflexivity|contradiction].
  - cbn. intuition.
  - cbn. repeat split; auto; try discriminate.
    intros s k S E. injection E as <-. lia.
  - eexists _, _. split; [vm_compute; reflexivity|]. vm_compute. reflexivity.
Qed.
