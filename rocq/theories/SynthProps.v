(** Properties C16-C18: the unidirectional ring protocol generator. *)
From Coq Require Import List Arith Lia Bool.
From Verif Require Import FinLib UniModel UniSpec LivelockSpec LivelockProofs2 TileSpec
  SynthModel SynthSpec SynthProofs.
Import ListNotations.

Definition in_range (M : nat) (legits : list (nat * nat)) : Prop :=
  forall a b, In (a, b) legits -> a < M /\ b < M.

(** The generator's loops terminate. *)
Theorem C16_generator_terminates :
  forall legits M, in_range M legits -> exists acts, generate legits M = Some acts.
Proof. exact generate_total. Qed.
Print Assumptions C16_generator_terminates.

(** ** C16 *)
Theorem C16_generated_protocol_terminates :
  forall legits M acts, in_range M legits -> generate legits M = Some acts ->
    livelock_free (acts_protocol acts) M.
Proof. intros. eapply gen_terminates; eauto. Qed.
Print Assumptions C16_generated_protocol_terminates.

Theorem C16_executions_bounded :
  forall legits M acts n s s', in_range M legits -> generate legits M = Some acts ->
    in_domain M s -> ring_run (acts_protocol acts) n s s' -> n < M ^ length s.
Proof.
  intros legits M acts n s s' HR H D R. eapply bounded_runs; eauto.
  - intros a b c Hin. eapply gen_range in Hin; eauto. tauto.
  - eapply gen_terminates; eauto.
Qed.
Print Assumptions C16_executions_bounded.

(** 2-colouring-like legitimate pairs with a self pair on 0. *)
Example C16_example :
  let legits := [(0, 0); (0, 1); (1, 2); (2, 0)] in
  in_range 3 legits /\
  generate legits 3 = Some [(0, 2, 0); (1, 0, 2); (1, 1, 2); (2, 1, 0); (2, 2, 0)].
Proof.
  split; [|vm_compute; reflexivity].
  intros a b H. simpl in H. repeat destruct H as [H|H]; try (injection H as <- <-; lia). destruct H.
Qed.

(** ** C17 *)
Theorem C17_legitimate_states_silent :
  forall legits M acts s, in_range M legits -> generate legits M = Some acts ->
    legit_state legits s -> silent (acts_protocol acts) s.
Proof. intros. eapply gen_legit_silent; eauto. Qed.
Print Assumptions C17_legitimate_states_silent.

Example C17_example : legit_state [(0, 0); (0, 1); (1, 2); (2, 0)] [0; 0; 1; 2].
Proof.
  intros p Hp. simpl in Hp. destruct p as [|[|[|[|p]]]]; [..|lia]; unfold legit; simpl; auto.
Qed.

(** ** C18: silent states need not be legitimate... *)
Theorem C18_silent_is_legitimate_refuted :
  exists legits M acts g s, in_range M legits /\ root legits g /\
    generate legits M = Some acts /\ in_domain M s /\
    silent (acts_protocol acts) s /\ ~ legit_state legits s.
Proof.
  exists [(0, 0); (0, 1); (1, 2); (2, 1)], 3,
    [(0, 2, 0); (1, 1, 0); (2, 2, 0)], 0, [0; 1].
  split.
  { intros a b H. simpl in H. repeat destruct H as [H|H]; try (injection H as <- <-; lia). destruct H. }
  split; [split; [left; auto|lia]|]. split; [vm_compute; reflexivity|].
  split; [repeat constructor|]. split.
  - intros s' (p & a & b & c & Ha & Hb & Hin & _).
    destruct p as [|[|p]]; simpl in Ha, Hb; [| |destruct p; discriminate];
      injection Ha as <-; injection Hb as <-; simpl in Hin;
      repeat destruct Hin as [Hin|Hin]; try discriminate; destruct Hin.
  - intros H. specialize (H 0 ltac:(simpl; lia)). unfold legit in H. simpl in H.
    repeat destruct H as [H|H]; try discriminate; destruct H.
Qed.
Print Assumptions C18_silent_is_legitimate_refuted.

(** ... exactly when some value that legitimate pairs can reach from the root,
    and from which they can be followed for ever, does not lead back to the
    root.  So the generated protocol converges on every ring if and only if no
    such value exists. *)
Theorem C18_converges_iff :
  forall legits M acts g, in_range M legits -> generate legits M = Some acts -> root legits g ->
    ((forall s, in_domain M s -> silent (acts_protocol acts) s -> legit_state legits s) <->
     (forall x, path (legit legits) g x -> alive legits x -> path (legit legits) x g)).
Proof. intros. apply gen_conv_iff with (M := M); auto. Qed.
Print Assumptions C18_converges_iff.

(** What a silent state looks like in general: a pair is legitimate, or the
    process holds the root value behind a value that cannot lead to the root. *)
Theorem C18_silent_pairs :
  forall legits M acts g s, in_range M legits -> generate legits M = Some acts -> root legits g ->
    in_domain M s -> silent (acts_protocol acts) s ->
    forall p, p < length s ->
      let a := nth (pred_of (length s) p) s 0 in let b := nth p s 0 in
      legit legits a b \/ (b = g /\ ~ path (legit legits) a g).
Proof.
  intros legits M acts g s HR H Hg D HS p Hp.
  destruct (gen_silent_pairs legits M HR acts g s H Hg D HS p Hp) as [[? _]|?]; [left|right]; auto.
Qed.
Print Assumptions C18_silent_pairs.

Example C18_example :
  let legits := [(0, 0); (0, 1); (1, 2); (2, 0)] in
  root legits 0 /\ forall x, path (legit legits) 0 x -> alive legits x -> path (legit legits) x 0.
Proof.
  intros legits. split; [split; [left; auto|lia]|].
  assert (H0 : path (legit legits) 0 0) by (apply path_one; unfold legit; simpl; auto).
  assert (H2 : path (legit legits) 2 0) by (apply path_one; unfold legit; simpl; auto).
  assert (H1 : path (legit legits) 1 0) by (apply path_more with 2; auto; unfold legit; simpl; auto).
  intros x Hp _. assert (HX : forall a b, path (legit legits) a b -> b < 3).
  { intros a b Hab. induction Hab; auto. unfold legit in H. simpl in H.
    repeat destruct H as [H|H]; try (injection H as <- <-; lia). destruct H. }
  specialize (HX _ _ Hp). destruct x as [|[|[|x]]]; auto; lia.
Qed.

(** With no legitimate self pair the generator gives up: no actions. *)
Theorem C18_no_self_pair_no_actions :
  forall legits M, in_range M legits -> (forall x, ~ legit legits x x) -> generate legits M = Some [].
Proof.
  intros legits M HR H. unfold generate.
  rewrite (proj2 (find_gamma_none legits M HR) H). reflexivity.
Qed.
Print Assumptions C18_no_self_pair_no_actions.
