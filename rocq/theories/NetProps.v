(** C64: the transitions of an action. *)
From Coq Require Import List Arith Bool Lia.
From Verif Require Import FinLib Radix FmlaModel FmlaSpec FmlaProofs FmlaProofs2 FmlaProofs3 FmlaProofs4 FmlaProps
  ActModel ActSpec ActProofs ActProofs2 ActProofs4 ActProps NetModel NetSpec NetProofs NetProofs2 NetProofs3 NetProofs4.
Import ListNotations.

(** The formula of one action for one process denotes exactly the moves of the action. *)
Theorem C64_move_exact : forall N p v s t, net_ok N -> In p (pcs N) -> action_values (its_kind N p) v ->
  ok (vdoms N) s -> ok (vdoms N) t ->
  (proc_step (vdoms N) (proc_of N p (xn_of_pc N p v)) s t <-> local_move N p v s t).
Proof. intros N p v s t HN Hp Hv S T. apply pc_step_move; auto. Qed.
Print Assumptions C64_move_exact.

Section Both.
Variable N : network.
Hypothesis HN : net_ok N.
Variables (a : nat) (lightweight : bool) (j : nat) (p : process).
Hypothesis Ha : a < actions_in (kinds N).
Hypothesis Hr : representative_action_index (kinds N) a = Some a.
Hypothesis Hj : nth_error (pcs N) j = Some p.
Notation ds := (vdoms N).
Notation step := (process_step N (action_xfmlae N lightweight a) j).

Lemma in_pcs : In p (pcs N).
Proof. eapply nth_error_In. eauto. Qed.

Lemma both_denote : exists R, denotes N (action_xfmlae N lightweight a) R /\
   (forall p s t, ok ds s -> ok ds t -> R p s t -> class_move N a p s t) /\
   (forall p s t, In p (pcs N) -> ok ds s -> ok ds t -> class_move N a p s t ->
      (deterministic_kind N a -> forall u, ok ds u -> ~ class_move N a p u s) -> R p s t) /\
   (deterministic_kind N a -> forall p u s t, ok ds u -> ok ds s -> ok ds t -> In p (pcs N) -> R p u s -> R p s t -> False).
Proof.
  unfold action_xfmlae. destruct lightweight; [|apply cached_denotes; auto].
  eexists. split; [apply light_denotes; auto|]. split; [|split].
  - tauto.
  - intros q s t Hq S T M D. split; auto. intros X (u & U & M'). exact (D X u U M').
  - intros D q u s t U S T Hq (M1 & _) (_ & M2). apply (M2 D). exists u. auto.
Qed.
End Both.

(** A step that the program attributes to an action is a move of that action or of one that
    differs in the names of links only. *)
Theorem C64_sound : forall N a lightweight j p s t, net_ok N -> a < actions_in (kinds N) ->
  representative_action_index (kinds N) a = Some a -> nth_error (pcs N) j = Some p -> ok (vdoms N) s -> ok (vdoms N) t ->
  process_step N (action_xfmlae N lightweight a) j s t -> class_move N a p s t.
Proof.
  intros N a lw j p s t HN Ha Hr Hj S T H. destruct (both_denote N HN a lw Ha Hr) as (R & D & H1 & _ & _).
  apply (denotes_process N _ _ D j p s t Hj S T) in H. auto.
Qed.
Print Assumptions C64_sound.

(** Every move is among the steps, unless it starts where a move of the same process can end. *)
Theorem C64_complete : forall N a lightweight j p s t, net_ok N -> a < actions_in (kinds N) ->
  representative_action_index (kinds N) a = Some a -> nth_error (pcs N) j = Some p -> ok (vdoms N) s -> ok (vdoms N) t ->
  class_move N a p s t ->
  (deterministic_kind N a -> forall u, ok (vdoms N) u -> ~ class_move N a p u s) ->
  process_step N (action_xfmlae N lightweight a) j s t.
Proof.
  intros N a lw j p s t HN Ha Hr Hj S T M Q. destruct (both_denote N HN a lw Ha Hr) as (R & D & _ & H2 & _).
  apply (denotes_process N _ _ D j p s t Hj S T). apply H2; auto. eapply nth_error_In. eauto.
Qed.
Print Assumptions C64_complete.

(** A deterministic action never leads to a state where the same process can execute it again. *)
Theorem C64_disables_itself : forall N a lightweight j p u s t, net_ok N -> a < actions_in (kinds N) ->
  representative_action_index (kinds N) a = Some a -> nth_error (pcs N) j = Some p -> deterministic_kind N a ->
  ok (vdoms N) u -> ok (vdoms N) s -> ok (vdoms N) t ->
  process_step N (action_xfmlae N lightweight a) j u s -> ~ process_step N (action_xfmlae N lightweight a) j s t.
Proof.
  intros N a lw j p u s t HN Ha Hr Hj DK U S T H1 H2. destruct (both_denote N HN a lw Ha Hr) as (R & D & _ & _ & H3).
  apply (denotes_process N _ _ D j p _ _ Hj) in H1; auto. apply (denotes_process N _ _ D j p _ _ Hj) in H2; auto.
  apply (H3 DK p u s t); auto. eapply nth_error_In. eauto.
Qed.
Print Assumptions C64_disables_itself.

(** Without stored formulas the steps are exactly these. *)
Theorem C64_lightweight_exact : forall N a j p s t, net_ok N -> a < actions_in (kinds N) ->
  representative_action_index (kinds N) a = Some a -> nth_error (pcs N) j = Some p -> ok (vdoms N) s -> ok (vdoms N) t ->
  (process_step N (action_xfmlae N true a) j s t <->
   class_move N a p s t /\ (deterministic_kind N a -> ~ exists u, ok (vdoms N) u /\ class_move N a p u s)).
Proof.
  intros N a j p s t HN Ha Hr Hj S T.
  rewrite (denotes_process N _ _ (light_denotes N HN a Ha Hr) j p s t Hj S T). tauto.
Qed.
Print Assumptions C64_lightweight_exact.

(** The two modes agree on classes of actions without a move that ends where another starts, and on
    randomised ones. *)
Theorem C64_modes_agree : forall N a j p s t, net_ok N -> a < actions_in (kinds N) ->
  representative_action_index (kinds N) a = Some a -> nth_error (pcs N) j = Some p -> ok (vdoms N) s -> ok (vdoms N) t ->
  (deterministic_kind N a -> forall u w x, ok (vdoms N) u -> ok (vdoms N) w -> ok (vdoms N) x ->
     class_move N a p u w -> ~ class_move N a p w x) ->
  (process_step N (action_xfmlae N true a) j s t <-> process_step N (action_xfmlae N false a) j s t).
Proof.
  intros N a j p s t HN Ha Hr Hj S T NC. split; intros H.
  - pose proof H as H'. apply (C64_sound N a true j p) in H; auto. apply (C64_complete N a false j p); auto.
    intros D u U M. exact (NC D u s t U S T M H).
  - pose proof H as H'. apply (C64_sound N a false j p) in H; auto. apply (C64_complete N a true j p); auto.
    intros D u U M. exact (NC D u s t U S T M H).
Qed.
Print Assumptions C64_modes_agree.

(** With stored formulas, the transition relation of an action is that of its processes. *)
Theorem C64_union_cached : forall N a s t, net_ok N -> a < actions_in (kinds N) -> ok (vdoms N) s -> ok (vdoms N) t ->
  (steps (action_pfmla N false a) s t <-> exists j, j < length (pcs N) /\ process_step N (action_xfmlae N false a) j s t).
Proof.
  intros N a s t HN Ha S T. pose proof (cached_trace N HN a Ha) as D. cbn [action_pfmla action_xfmlae]. unfold action_pfmla_cached.
  rewrite (denotes_union N HN _ _ D s t S T). split.
  - intros (p & Hp & M). apply In_nth_error in Hp. destruct Hp as (j & Hj). exists j. split.
    + apply nth_error_Some. congruence.
    + apply (denotes_process N _ _ D j p s t Hj S T). auto.
  - intros (j & Hj & M). destruct (nth_error (pcs N) j) as [p|] eqn:E; [|apply nth_error_None in E; lia].
    exists p. split; [eapply nth_error_In; eauto|]. apply (denotes_process N _ _ D j p s t E S T). auto.
Qed.
Print Assumptions C64_union_cached.

(** Without stored formulas it loses the moves that start where a move of any process can end. *)
Theorem C64_union_lightweight : forall N a s t, net_ok N -> a < actions_in (kinds N) ->
  representative_action_index (kinds N) a = Some a -> ok (vdoms N) s -> ok (vdoms N) t ->
  (steps (action_pfmla N true a) s t <->
   (exists p, In p (pcs N) /\ class_move N a p s t) /\
   (deterministic_kind N a -> ~ exists p u, In p (pcs N) /\ ok (vdoms N) u /\ class_move N a p u s)).
Proof. intros N a s t HN Ha Hr S T. apply light_union; auto. Qed.
Print Assumptions C64_union_lightweight.

(** * Examples *)
(** A process without constraints of its own. *)
Definition plain (k : nat) (vs : list nat) : process :=
  mkProcess k vs (Cst true) (Cst false) (Cst false) (Cst false) (Cst false).

Lemma plain_ok : forall ds rs ks ps,
  inhabited ds -> (forall k, In k ks -> laid_out k) ->
  (forall p, In p ps -> exists k vs, p = plain k vs /\ k < length ks /\ length vs = length (accs (nth k ks pc0)) /\
     forall i, i < length vs -> nth i vs 0 < length ds /\ nth (nth i vs 0) ds 0 = a_dom (nth i (accs (nth k ks pc0)) acc0)
       /\ nth (nth i vs 0) rs Direct = a_role (nth i (accs (nth k ks pc0)) acc0)) ->
  net_ok (mkNetwork ds rs ks ps).
Proof.
  intros ds rs ks ps I L H. split; cbn [vdoms vroles kinds pcs]; auto.
  - intros p Hp. destruct (H p Hp) as (k & vs & -> & A & _). exact A.
  - intros p Hp. destruct (H p Hp) as (k & vs & -> & A & B & _). exact B.
  - intros p i Hp Hi. destruct (H p Hp) as (k & vs & -> & A & B & C). apply C. unfold accesses, its_kind in Hi. cbn in *. lia.
  - intros p Hp. destruct (H p Hp) as (k & vs & -> & _). intros a i a' i' q _ _ _ _ _. cbn. tauto.
  - intros p Hp f Hf. destruct (H p Hp) as (k & vs & -> & _). cbn in Hf.
    assert (E : f = Cst false) by intuition. subst f. split.
    + intros a a' i q _ _ _ _. cbn. tauto.
    + intros a i i' q _ _ _ _ _. cbn. tauto.
Qed.

(** A ring of three binary variables.  Each process reads its left neighbour's and writes its own. *)
Definition bit (t : atype) : access := {| a_type := t; a_role := Direct; a_dom := 2 |}.
Definition ring3 : network :=
  mkNetwork [2; 2; 2] [Direct; Direct; Direct] [declare [Plain (bit ReadAccess); Plain (bit WriteAccess)]]
    [plain 0 [2; 0]; plain 0 [0; 1]; plain 0 [1; 2]].

Lemma ring3_ok : net_ok ring3.
Proof.
  apply plain_ok.
  - repeat constructor.
  - intros k [<-|[]]. apply C40_declared_processes. intros n vs [H|[H|[]]]; discriminate.
  - intros p [<-|[<-|[<-|[]]]]; eexists 0, _; (split; [reflexivity|]); (split; [cbn; lia|]); (split; [reflexivity|]);
      intros [|[|i]] Hi; cbn in *; repeat split; lia.
Qed.

Ltac low := repeat match goal with
  | |- FmlaSpec.ok _ _ => repeat constructor
  | |- _ /\ _ => split
  end.

(** Left 1 and own 0: own becomes 1. *)
Lemma ring3_move : forall j p s t, nth_error (pcs ring3) j = Some p -> ok (vdoms ring3) s -> ok (vdoms ring3) t ->
  (class_move ring3 5 p s t <->
   value s p 0 = 1 /\ value s p 1 = 0 /\ value t p 1 = 1 /\ forall x, x < 3 -> x <> vbl_at p 1 -> nth x t 0 = nth x s 0).
Proof.
  intros j p s t Hj S T.
  assert (Hp : In p (pcs ring3)) by (eapply nth_error_In; eauto).
  assert (K : p_kind p = 0) by (destruct Hp as [<-|[<-|[<-|[]]]]; reflexivity).
  assert (KK : its_kind ring3 p = declare [Plain (bit ReadAccess); Plain (bit WriteAccess)]) by (unfold its_kind; rewrite K; reflexivity).
  assert (OWN : forall x, own ring3 p x <-> x = vbl_at p 1).
  { intros x. unfold own, accesses, access_at. rewrite KK. cbn [declare accs flat_map decl_accs app length]. split.
    - intros (i & Hi & W & E). destruct i as [|[|i]]; [|auto|lia]. destruct W as [W|[W|[W|W]]]; discriminate.
    - intros ->. exists 1. split; [lia|]. split; auto. left. reflexivity. }
  assert (FK : forall x, ~ fickle ring3 x).
  { intros x (q & i & Hq & Hi & A & _). 
    assert (K' : p_kind q = 0) by (destruct Hq as [<-|[<-|[<-|[]]]]; reflexivity).
    unfold accesses, access_at, its_kind in *. rewrite K' in *. cbn in Hi. destruct i as [|[|i]]; [| |lia]; discriminate. }
  assert (ND : ~ randomised ring3 p).
  { intros (i & Hi & _ & A). unfold accesses, access_at in *. rewrite KK in *. cbn in Hi. destruct i as [|[|i]]; [| |lia]; discriminate. }
  assert (CL : forall r, r < actions_in (kinds ring3) -> same_action_class (kinds ring3) 5 r -> r = 5).
  { intros r H1 H2. assert (REP : representative_action_index (kinds ring3) r = representative_action_index (kinds ring3) 5).
    { symmetry. apply C40_classes; auto; [apply (no_links _ ring3_ok)|cbn; lia]. }
    cbn in H1. do 8 (destruct r as [|r]; [vm_compute in REP; try discriminate; reflexivity|]). lia. }
  assert (SELF : same_action_class (kinds ring3) 5 5).
  { apply C40_classes; [apply (no_links _ ring3_ok)|cbn; lia|cbn; lia|reflexivity]. }
  assert (VA : vals (act_of (kinds ring3) 5) = [1; 0; 1]) by reflexivity.
  unfold class_move. split.
  - intros (r & H1 & H2 & _ & M). apply CL in H2; auto. subst r. rewrite VA in M. destruct M as [G A F _ _].
    unfold accesses, access_at in *. rewrite KK in *. cbn [declare accs flat_map decl_accs app length] in *.
    split; [|split; [|split]].
    + apply (G 0); [lia|]. split; [|split]; discriminate.
    + apply (G 1); [lia|]. split; [|split]; discriminate.
    + specialize (A 1). cbn in A. apply A; [lia|left; reflexivity|discriminate].
    + intros x Hx NE. apply F; auto. rewrite OWN. auto.
  - intros (H0 & H1 & H2 & H3). exists 5. split; [cbn; lia|]. split; [auto|]. split; [rewrite K; reflexivity|]. rewrite VA.
    split; unfold accesses, access_at; rewrite ?KK; cbn [declare accs flat_map decl_accs app length].
    + intros [|[|i]] Hi V; [exact H0|exact H1|lia].
    + intros [|[|i]] Hi W R; [destruct W as [W|[W|[W|W]]]; discriminate|cbn; exact H2|lia].
    + intros x Hx NO NF. apply H3; auto. rewrite OWN in NO. auto.
    + intros _ X. exfalso. specialize (X 1). cbn in X. assert (0 = 1); [|lia]. apply X; [lia|left; reflexivity|].
      split; [|split]; discriminate.
    + intros X. contradiction.
Qed.

Example C64_example :
  net_ok ring3 /\ representative_action_index (kinds ring3) 5 = Some 5 /\ deterministic_kind ring3 5 /\
  (forall lightweight, process_step ring3 (action_xfmlae ring3 lightweight 5) 1 [1; 0; 0] [1; 1; 0]) /\
  (forall lightweight, ~ process_step ring3 (action_xfmlae ring3 lightweight 5) 1 [1; 0; 0] [1; 1; 1]) /\
  (forall lightweight, process_step ring3 (action_xfmlae ring3 lightweight 5) 2 [1; 1; 0] [1; 1; 1]).
Proof.
  assert (A : 5 < actions_in (kinds ring3)) by (cbn; lia).
  assert (R : representative_action_index (kinds ring3) 5 = Some 5) by reflexivity.
  split; [apply ring3_ok|]. split; [exact R|]. split.
  - intros x Hx. cbn in Hx. destruct Hx as [<-|[<-|[]]]; discriminate.
  - split; [|split].
    + intros lw. apply (C64_complete ring3 5 lw 1 (plain 0 [0; 1])); auto using ring3_ok; low; try reflexivity.
      * apply (ring3_move 1); auto; low; try reflexivity. intros x Hx NE. destruct x as [|[|[|x]]]; cbn in *; auto; lia.
      * intros _ u U M. apply (ring3_move 1) in M; auto; low. destruct M as (_ & _ & M & _). discriminate.
    + intros lw H. apply (C64_sound ring3 5 lw 1 (plain 0 [0; 1])) in H; auto using ring3_ok; low; try reflexivity.
      apply (ring3_move 1) in H; auto; low. destruct H as (_ & _ & _ & H). specialize (H 2). cbn in H. assert (1 = 0); [apply H; lia|lia].
    + intros lw. apply (C64_complete ring3 5 lw 2 (plain 0 [1; 2])); auto using ring3_ok; low; try reflexivity.
      * apply (ring3_move 2); auto; low; try reflexivity. intros x Hx NE. destruct x as [|[|[|x]]]; cbn in *; auto; lia.
      * intros _ u U M. apply (ring3_move 2) in M; auto; low. destruct M as (_ & _ & M & _). discriminate.
Qed.

(** Refuted: "in every mode the transition relation of an action is that of its processes".  In
    the state (1, 1, 0) the third process can move, but the relation has no such transition: the
    state is one where a move of the second process ends. *)
Theorem C64_union_lightweight_refuted : exists N a s t j,
  net_ok N /\ a < actions_in (kinds N) /\ representative_action_index (kinds N) a = Some a /\
  ok (vdoms N) s /\ ok (vdoms N) t /\ j < length (pcs N) /\
  process_step N (action_xfmlae N true a) j s t /\ process_step N (action_xfmlae N false a) j s t /\
  steps (action_pfmla N false a) s t /\ ~ steps (action_pfmla N true a) s t.
Proof.
  destruct C64_example as (A1 & A2 & A3 & A4 & _ & A5).
  assert (A : 5 < actions_in (kinds ring3)) by (cbn; lia).
  exists ring3, 5, [1; 1; 0], [1; 1; 1], 2. split; auto. split; auto. split; auto. low. { cbn; lia. } { apply A5. } { apply A5. }
  - apply C64_union_cached; auto; low. exists 2. split; [cbn; lia|]. apply A5.
  - intros H. apply C64_union_lightweight in H; auto; low. destruct H as (_ & H). apply (H A3).
    exists (plain 0 [0; 1]), [1; 0; 0]. split; [cbn; auto|]. low.
    apply (ring3_move 1); auto; low; try reflexivity. intros x Hx NE. destruct x as [|[|[|x]]]; cbn in *; auto; lia.
Qed.
Print Assumptions C64_union_lightweight_refuted.
