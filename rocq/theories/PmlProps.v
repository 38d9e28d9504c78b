(** C88: the Promela model of a solution. *)
From Coq Require Import NArith.
From Verif Require Import UdpModel UdpSpec.
From Coq Require Import String List Arith Bool ZArith Lia.
From Verif Require Import FinLib Radix ParseModel AccessModel AccessSpec PrintModel FmlaModel FmlaSpec IntModel IntSpec ExprModel ExprSpec
  ActModel ActSpec ActProps NetModel NetSpec NetProps CmdModel UgenModel UgenSpec UgenProps UgenProps2 PmlModel PmlSpec PmlProofs PmlProofs2 PmlProofs3 PmlProofs4 PmlProofs5.
Import ListNotations.
Local Open Scope string_scope.
Local Open Scope list_scope.
Local Open Scope nat_scope.

(** The model is always written. *)
Theorem C88_written : forall T O arrays cs ks actions fuel, net_ok T -> plain_kinds (kinds T) -> proper_actions T actions ->
  2 * length (assignments (vdoms T)) < fuel -> exists M, OPutPromelaModel T O arrays (texts cs) ks fuel true actions = Some M.
Proof.
  intros T O arrays cs ks actions fuel HT PL ACTS F. unfold OPutPromelaModel. destruct (unroll_list T HT PL actions ACTS fuel F) as (l & -> & _). eauto.
Qed.
Print Assumptions C88_written.

(** SPIN goes from [s] to [t] exactly if a process of the system does, in a state that the assumption of the process allows. *)
Theorem C88_steps_exact : forall T O arrays cs ks actions fuel M, net_ok T -> net_ok O -> same_protocol T O -> plain_kinds (kinds T) ->
  proper_actions T actions -> (forall p, In p (pcs O) -> NoDup (p_vbls p)) -> describes_net O arrays cs ks ->
  (forall i p, nth_error (pcs O) i = Some p -> exists s t, ok (vdoms O) s /\ ok (vdoms O) t /\ solution_step O actions i s t /\ assumed_like T O p s) ->
  2 * length (assignments (vdoms T)) < fuel -> OPutPromelaModel T O arrays (texts cs) ks fuel true actions = Some M ->
  forall s t, ok (vdoms O) s -> ok (vdoms O) t ->
  (promela_step M arrays s t <-> exists i p, nth_error (pcs O) i = Some p /\ solution_step O actions i s t /\ assumed_like T O p s).
Proof.
  intros T O arrays cs ks actions fuel M HT HO SP PL ACTS ND DN MV F E s t S Tt. unfold OPutPromelaModel in E.
  destruct (unroll_list T HT PL actions ACTS fuel F) as (l & EL & HL). rewrite EL in E. injection E as E.
  apply (steps_iff T O arrays cs ks actions HT HO SP PL ACTS ND DN M ltac:(rewrite <- E; reflexivity) ltac:(rewrite <- E; reflexivity) l HL ltac:(rewrite <- E; reflexivity) MV); auto.
Qed.
Print Assumptions C88_steps_exact.

(** The run never leaves the arrays or the domains. *)
Theorem C88_safe : forall T O arrays cs ks actions fuel M, net_ok T -> net_ok O -> same_protocol T O -> plain_kinds (kinds T) ->
  proper_actions T actions -> (forall p, In p (pcs O) -> NoDup (p_vbls p)) -> describes_net O arrays cs ks ->
  (forall i p, nth_error (pcs O) i = Some p -> exists s t, ok (vdoms O) s /\ ok (vdoms O) t /\ solution_step O actions i s t /\ assumed_like T O p s) ->
  2 * length (assignments (vdoms T)) < fuel -> OPutPromelaModel T O arrays (texts cs) ks fuel true actions = Some M ->
  forall s, ok (vdoms O) s -> ~ promela_fault M arrays s /\ forall t, promela_step M arrays s t -> ok (vdoms O) t.
Proof.
  intros T O arrays cs ks actions fuel M HT HO SP PL ACTS ND DN MV F E s S. unfold OPutPromelaModel in E.
  destruct (unroll_list T HT PL actions ACTS fuel F) as (l & EL & HL). rewrite EL in E. injection E as E. split.
  - apply (no_fault T O arrays cs ks actions HT HO SP PL ACTS ND DN M ltac:(rewrite <- E; reflexivity) ltac:(rewrite <- E; reflexivity) l HL ltac:(rewrite <- E; reflexivity) MV); auto.
  - intros t. apply (steps_ok T O arrays cs ks actions HT HO SP PL ACTS ND DN M ltac:(rewrite <- E; reflexivity) ltac:(rewrite <- E; reflexivity) l HL ltac:(rewrite <- E; reflexivity) MV); auto.
Qed.
Print Assumptions C88_safe.

(** The initial states are all states. *)
Theorem C88_initial : forall T O arrays cs ks actions fuel M, describes_net O arrays cs ks ->
  OPutPromelaModel T O arrays (texts cs) ks fuel true actions = Some M ->
  let start := repeat 0 (length (vdoms O)) in
  (forall choice, run_init M arrays (m_selects M) choice start <> Fault) /\
  forall t, (exists choice, run_init M arrays (m_selects M) choice start = Next t) <-> ok (vdoms O) t.
Proof.
  intros T O arrays cs ks actions fuel M DN E start. unfold OPutPromelaModel in E. destruct (unroll_all T true fuel actions) as [l|]; [|discriminate]. injection E as E. replace (m_selects M) with (selects O arrays) by (rewrite <- E; reflexivity).
  apply (init_iff O arrays cs ks DN M ltac:(rewrite <- E; reflexivity)). apply repeat_length.
Qed.
Print Assumptions C88_initial.

(** ** Example: the ring of C77, with "constant N := 5; variable x[N] < 2; process P[i < N] { read: x[i-1]; write: x[i]; }" *)
Definition ring_text : kind_text :=
  mkKindText "i" None [] [mkSlot ReadAccess "x" (SBin SubOp (SName "i") (SNat 1)) (SBin SubOp (SName "i") (SNat 1)); mkSlot WriteAccess "x" (SName "i") (SName "i")]
    [[-1; 0; 1; 2; 3]; [0; 1; 2; 3; 4]]%Z.
Definition ring_arrays : list (string * list nat) := [("x", [0; 1; 2; 3; 4])].
Definition ring_consts : list (string * sexp) := [("N", SNat 5)].
Definition ring_scope : scope := mkScope [] [] [("N", [5%Z])] [] [].
Definition ring_model : pmodel := match OPutPromelaModel ring2 ring5 ring_arrays (texts ring_consts) [ring_text] 9 true [5; 2] with Some M => M | None => mkPmodel [] [] [] [] end.

Lemma ring_described : describes_net ring5 ring_arrays ring_consts [ring_text].
Proof.
  split.
  - cbn. repeat split; auto. intros x [].
  - reflexivity.
  - cbn. repeat constructor. intros [].
  - intros x l v w [E|[]] V W. injection E as <- <-. cbn in V, W. repeat (destruct V as [<-|V]; [repeat (destruct W as [<-|W]; [reflexivity|]); destruct W|]). destruct V.
  - repeat constructor.
  - intros k K. cbn in K. assert (k = 0) by lia. subst k. exists [], None. split.
    + split; [reflexivity|reflexivity|exact Logic.I|discriminate|]. intros [|[|i]] L; [| |cbn in L; lia].
      * cbn. split; [repeat split; auto|]. intros y [<-|[]]. left; auto.
      * cbn. split; auto. intros y [<-|[]]. left; auto.
    + intros j i p (A & _ & C). exists ring_scope, (Z.of_nat j). assert (j = i /\ i < 5) as (-> & L).
      { do 5 (destruct i as [|i]; [cbn in C; split; lia|]). destruct i; discriminate. }
      split.
      * constructor; [|constructor]. exists 5%Z, []. auto.
      * constructor.
      * reflexivity.
      * intros m M. do 5 (destruct i as [|i]; [cbn in A; injection A as <-; destruct m as [|[|m]]; [| |cbn in M; lia];
          [eexists (_ - 1)%Z|eexists]; exists [0; 1; 2; 3; 4]; (split; [reflexivity|]); (split; [reflexivity|]); (split; [reflexivity|]); (split; [discriminate|reflexivity])|]). lia.
      * intros y [<-|[]]. split; [discriminate|reflexivity].
      * intros [].
Qed.
Lemma by_step : forall N actions a i s t, In a actions -> i < length (procs_of N (action_xfmlae N true a)) ->
  let q := nth i (procs_of N (action_xfmlae N true a)) (mkProc [] (Cst false) (Cst false)) in
  FmlaModel.eval (xn q) (join s t s) = true -> forallb (fun v => existsb (Nat.eqb v) (wvbls q) || (nth v s 0 =? nth v t 0)) (seq 0 (length (vdoms N))) = true ->
  solution_step N actions i s t.
Proof.
  intros N actions a i s t A L q E W. exists a. split; auto. exists q. split; [apply nth_error_nth'; auto|]. split; auto.
  intros v V NI. rewrite forallb_forall in W. specialize (W v ltac:(apply in_seq; lia)). apply orb_prop in W. destruct W as [W|W]; [|apply Nat.eqb_eq; auto].
  apply existsb_exists in W. destruct W as (w & Iw & Ew). apply Nat.eqb_eq in Ew. subst w. contradiction.
Qed.
Lemma ring_moves : forall i p, nth_error (pcs ring5) i = Some p -> exists s t, ok (vdoms ring5) s /\ ok (vdoms ring5) t /\
  solution_step ring5 [5; 2] i s t /\ assumed_like ring2 ring5 p s.
Proof.
  intros i p H.
  assert (G : forall s t x j, s = map (fun k => if k =? i then 0 else 1) (seq 0 5) -> t = [1; 1; 1; 1; 1] -> x = [1; 0] -> j = 0 -> i < 5 -> ok (vdoms ring5) s /\ ok (vdoms ring5) t /\
    solution_step ring5 [5; 2] i s t /\ assumed_like ring2 ring5 p s).
  { intros s t x j -> -> -> -> L. split; [|split; [|split]].
    - do 5 (destruct i as [|i]; [cbn; repeat constructor|]). lia.
    - repeat constructor.
    - do 5 (destruct i as [|i]; [apply (by_step _ _ 5); [left; reflexivity|vm_compute; lia|vm_compute; reflexivity|vm_compute; reflexivity]|]). lia.
    - exists 0, (plain 0 [1; 0]). split.
      + split; [reflexivity|]. split; [apply nth_error_In in H; cbn in H; intuition subst; reflexivity|]. left. split; [cbn; repeat constructor; cbn; intuition discriminate|]. intros j q J. lia.
      + exists [0; 1]. split; [repeat constructor|]. split; [|reflexivity]. do 5 (destruct i as [|i]; [cbn in H; injection H as <-; reflexivity|]). lia. }
  do 2 eexists. apply (G _ _ _ _ eq_refl eq_refl eq_refl eq_refl). change (i < length (pcs ring5)). apply nth_error_Some. rewrite H. discriminate.
Qed.

Example C88_example :
  net_ok ring2 /\ net_ok ring5 /\ same_protocol ring2 ring5 /\ plain_kinds (kinds ring2) /\ proper_actions ring2 [5; 2] /\
  (forall p, In p (pcs ring5) -> NoDup (p_vbls p)) /\ describes_net ring5 ring_arrays ring_consts [ring_text] /\
  OPutPromelaModel ring2 ring5 ring_arrays (texts ring_consts) [ring_text] 9 true [5; 2] = Some ring_model /\
  (* x[(i-1+5)%5]==1 && x[i]==0 -> x[i]=1; *)
  map (fun t => (t_copies t, t_offset t, hd (mkPopt [] []) (tl (t_options t)))) (m_proctypes ring_model) =
    [(5, 1, mkPopt [([TId "x"; TLb; TLp; TId "i"; TMinus; TNat 1; TPlus; TNat 5; TRp; TMod; TNat 5; TRb], 1); ([TId "x"; TLb; TId "i"; TRb], 0)]
                   [([TId "x"; TLb; TId "i"; TRb], 1)])] /\
  promela_step ring_model ring_arrays [0; 0; 1; 0; 1] [1; 0; 1; 0; 1] /\ ~ promela_step ring_model ring_arrays [0; 0; 1; 0; 1] [1; 1; 1; 0; 1].
Proof.
  split; [apply ring2_ok|]. split; [apply ring5_ok|]. split; [apply copies_same|].
  split. { intros k a [<-|[]] [<-|[<-|[]]]; repeat split; discriminate. }
  split; [apply copies_proper|]. split; [intros p H; cbn in H; destruct H as [<-|[<-|[<-|[<-|[<-|[]]]]]]; cbn; distinct_list|].
  split; [apply ring_described|]. split; [vm_compute; reflexivity|]. split; [vm_compute; reflexivity|]. split.
  - exists (hd (mkProctype 0 0 "" None [] []) (m_proctypes ring_model)), 1, (hd (mkPopt [] []) (tl (t_options (hd (mkProctype 0 0 "" None [] []) (m_proctypes ring_model))))).
    split; [vm_compute; auto|]. split; [vm_compute; auto|]. vm_compute. reflexivity.
  - intros (pt & pid & o & I & IO & R). assert (B : forallb (fun tp : proctype * nat => forallb (fun o => match run_option ring_model ring_arrays (fst tp) (snd tp) o [0; 0; 1; 0; 1] with
      Next t => negb (list_eqb Nat.eqb t [1; 1; 1; 0; 1]) | _ => true end) (t_options (fst tp))) (started 1 (m_proctypes ring_model)) = true) by (vm_compute; reflexivity).
    rewrite forallb_forall in B. specialize (B _ I). cbn [fst snd] in B. rewrite forallb_forall in B. specialize (B _ IO). rewrite R in B. discriminate.
Qed.

(** ** What does not hold *)
(** An index with "%": the protocol's remainder is not negative, C's is.  With "read: x[(i-1)%5]" the printed model reads
    x[-1]. *)
Definition mod_index : sexp := SBin ModOp (SInt (SBin SubOp (SName "i") (SNat 1))) (SNat 5).
Definition mod_text : kind_text :=
  mkKindText "i" None [] [mkSlot ReadAccess "x" mod_index mod_index; mkSlot WriteAccess "x" (SName "i") (SName "i")] [[4; 0; 1; 2; 3]; [0; 1; 2; 3; 4]]%Z.
Theorem C88_mod_index_refuted :
  (forall i p, nth_error (pcs ring5) i = Some p -> exists z, value_of ring_scope [("i", Z.of_nat i)] mod_index [] = Some z /\
     nth_error (nth 0 (k_indices mod_text) []) i = Some z /\ member [0; 1; 2; 3; 4] z = Some (vbl_at p 0)) /\
  exists M, OPutPromelaModel ring2 ring5 ring_arrays (texts ring_consts) [mod_text] 9 true [5; 2] = Some M /\ promela_fault M ring_arrays [0; 0; 0; 0; 1].
Proof.
  split.
  - intros i p H. do 5 (destruct i as [|i]; [cbn in H; injection H as <-; eexists; repeat split; reflexivity|]). destruct i; discriminate.
  - destruct (C88_written ring2 ring5 ring_arrays ring_consts [mod_text] [5; 2] 9) as (M & E); [apply ring2_ok|intros k a [<-|[]] [<-|[<-|[]]]; repeat split; discriminate|apply copies_proper|vm_compute; lia|].
    exists M. split; auto. vm_compute in E. injection E as <-. do 3 eexists. split; [left; reflexivity|]. split; [left; reflexivity|]. vm_compute. reflexivity.
Qed.
Print Assumptions C88_mod_index_refuted.

(** A kind of processes without actions is not printed, but its processes are counted: the processes of later kinds
    get negative indices.  Here one process of kind 0 does nothing, and one of kind 1 copies a bit. *)
Definition two_kinds : network := mkNetwork [2; 2] [Direct; Direct] [copier; copier] [plain 0 [0; 1]; plain 1 [0; 1]].
Definition own_text : kind_text :=
  mkKindText "i" None [] [mkSlot ReadAccess "x" (SNat 0) (SNat 0); mkSlot WriteAccess "y" (SName "i") (SName "i")] [[0]; [0]]%Z.
Theorem C88_idle_kind_refuted : exists M,
  OPutPromelaModel two_kinds two_kinds [("x", [0]); ("y", [1])] [] [own_text; own_text] 9 true [13] = Some M /\
  solution_step two_kinds [13] 1 [1; 0] [1; 1] /\ promela_fault M [("x", [0]); ("y", [1])] [1; 0].
Proof.
  eexists. split; [vm_compute; reflexivity|]. split.
  - apply (by_step _ _ 13); [left; reflexivity|vm_compute; lia|vm_compute; reflexivity|vm_compute; reflexivity].
  - do 3 eexists. split; [left; reflexivity|]. split; [left; reflexivity|]. vm_compute. reflexivity.
Qed.
Print Assumptions C88_idle_kind_refuted.

(** Shadow variables are not unrolled, so the printed actions demand that they are 0 and assign 0 to them: a step of the
    solution is missing where the shadow variable is 1, and where it is 0 it is not set to 1. *)
Definition shadowed : pcsymm := declare [Plain (bit ReadAccess); Plain (bit WriteAccess); Plain {| a_type := WriteAccess; a_role := Shadow; a_dom := 2 |}].
Definition shadow_net : network := mkNetwork [2; 2; 2] [Direct; Direct; Shadow] [shadowed] [plain 0 [0; 1; 2]].
Definition shadow_text : kind_text :=
  mkKindText "i" None [] [mkSlot ReadAccess "x" (SName "i") (SName "i"); mkSlot WriteAccess "y" (SName "i") (SName "i"); mkSlot WriteAccess "z" (SName "i") (SName "i")] [[0]; [0]; [0]]%Z.
Theorem C88_shadow_refuted : exists M,
  OPutPromelaModel shadow_net shadow_net [("x", [0]); ("y", [1]); ("z", [2])] [] [shadow_text] 30 true [16] = Some M /\
  solution_step shadow_net [16] 0 [1; 0; 1] [1; 1; 1] /\ (forall t, ~ promela_step M [("x", [0]); ("y", [1]); ("z", [2])] [1; 0; 1] t) /\
  solution_step shadow_net [16] 0 [1; 0; 0] [1; 1; 1] /\ promela_step M [("x", [0]); ("y", [1]); ("z", [2])] [1; 0; 0] [1; 1; 0].
Proof.
  eexists. split; [vm_compute; reflexivity|].
  assert (ST : forall z, z < 2 -> solution_step shadow_net [16] 0 [1; 0; z] [1; 1; 1]).
  { intros z Z. apply (by_step _ _ 16); [left; reflexivity|vm_compute; lia| |]; (destruct z as [|[|z]]; [vm_compute; reflexivity|vm_compute; reflexivity|lia]). }
  split; [apply ST; lia|]. split.
  - intros t (pt & pid & o & I & IO & R). vm_compute in I. destruct I as [I|[]]. injection I as <- <-. vm_compute in IO. destruct IO as [<-|[]]. vm_compute in R. discriminate.
  - split; [apply ST; lia|]. do 3 eexists. split; [left; reflexivity|]. split; [left; reflexivity|]. vm_compute. reflexivity.
Qed.
Print Assumptions C88_shadow_refuted.
