(** C65: examples, and what is not true of candidates. *)
From Coq Require Import List Arith Bool Lia.
From Verif Require Import FinLib Radix FmlaModel FmlaSpec FmlaProofs FmlaProofs2 FmlaProofs3 FmlaProofs4
  ActModel ActSpec ActProofs ActProofs4 ActProps NetModel NetSpec NetProofs NetProofs2 NetProofs3 NetProofs4 NetProps
  CandModel CandSpec CandProofs CandProofs2 CandProps.
Import ListNotations.

(** ** A ring of three bits that are to become equal *)
Lemma ring3_moves : forall r l o n j p s t, r < 8 -> vals (act_of (kinds ring3) r) = [l; o; n] -> o <> n -> n < 2 ->
  nth_error (pcs ring3) j = Some p -> ok (vdoms ring3) s -> ok (vdoms ring3) t ->
  (class_move ring3 r p s t <->
   value s p 0 = l /\ value s p 1 = o /\ value t p 1 = n /\ forall x, x < 3 -> x <> vbl_at p 1 -> nth x t 0 = nth x s 0).
Proof.
  intros r l o n j p s t R8 VA ON N2 Hj S T.
  assert (Hp : In p (pcs ring3)) by (eapply nth_error_In; eauto).
  assert (K : p_kind p = 0) by (destruct Hp as [<-|[<-|[<-|[]]]]; reflexivity).
  assert (KK : its_kind ring3 p = declare [Plain (bit ReadAccess); Plain (bit WriteAccess)]) by (unfold its_kind; rewrite K; reflexivity).
  assert (OWN : forall x, own ring3 p x <-> x = vbl_at p 1).
  { intros x. unfold own, accesses, access_at. rewrite KK. cbn [declare accs flat_map decl_accs app length]. split.
    - intros (i & Hi & W & E). destruct i as [|[|i]]; [|auto|lia]. destruct W as [W|[W|[W|W]]]; discriminate.
    - intros ->. exists 1. split; [lia|]. split; auto. left. reflexivity. }
  assert (FK : forall x, ~ fickle ring3 x).
  { intros x (q & i & Hq & Hi & A & _).
    assert (K' : p_kind q = 0) by (destruct Hq as [<-|[<-|[<-|[]]]]; reflexivity).
    unfold accesses, access_at, its_kind in *. rewrite K' in *. cbn in Hi. destruct i as [|[|i]]; [| |lia]; discriminate. }
  assert (ND : ~ randomised ring3 p).
  { intros (i & Hi & _ & A). unfold accesses, access_at in *. rewrite KK in *. cbn in Hi. destruct i as [|[|i]]; [| |lia]; discriminate. }
  assert (RR : forall q, q < 8 -> representative_action_index (kinds ring3) q = Some q).
  { intros q Hq. do 8 (destruct q as [|q]; [vm_compute; reflexivity|]). lia. }
  assert (AI : actions_in (kinds ring3) = 8) by (vm_compute; reflexivity).
  assert (CL : forall q, q < actions_in (kinds ring3) -> same_action_class (kinds ring3) r q -> q = r).
  { intros q H1 H2. apply (C40_classes (kinds ring3) r q (no_links _ ring3_ok) ltac:(lia) H1) in H2.
    rewrite !RR in H2 by lia. congruence. }
  assert (SELF : same_action_class (kinds ring3) r r) by (apply (C40_classes (kinds ring3) r r (no_links _ ring3_ok) ltac:(lia) ltac:(lia)); auto).
  assert (PC : act_pc (act_of (kinds ring3) r) = 0) by (do 8 (destruct r as [|r]; [vm_compute; reflexivity|]); lia).
  unfold class_move. split.
  - intros (q & H1 & H2 & _ & M). apply CL in H2; auto. subst q. rewrite VA in M. destruct M as [G A F _ _].
    unfold accesses, access_at in *. rewrite KK in *. cbn [declare accs flat_map decl_accs app length] in *.
    split; [|split; [|split]].
    + apply (G 0); [lia|]. split; [|split]; discriminate.
    + apply (G 1); [lia|]. split; [|split]; discriminate.
    + specialize (A 1). cbn [nth] in A. change (assigned (declare [Plain (bit ReadAccess); Plain (bit WriteAccess)]) [l; o; n] 1) with n in A.
      rewrite A; [|lia|left; reflexivity|discriminate]. cbn [bit a_dom]. destruct (Nat.eqb_spec n 2); [lia|auto].
    + intros x Hx NE. apply F; auto. rewrite OWN. auto.
  - intros (H0 & H1 & H2 & H3). exists r. split; [lia|]. split; [auto|]. split; [rewrite K, PC; reflexivity|]. rewrite VA.
    split; unfold accesses, access_at; rewrite ?KK; cbn [declare accs flat_map decl_accs app length].
    + intros [|[|i]] Hi V; [exact H0|exact H1|lia].
    + intros [|[|i]] Hi W R; [destruct W as [W|[W|[W|W]]]; discriminate| |lia]. cbn [nth].
      change (assigned _ _ 1) with n. cbn [bit a_dom]. destruct (Nat.eqb_spec n 2); [lia|auto].
    + intros x Hx NO NF. apply H3; auto. rewrite OWN in NO. auto.
    + intros _ X. exfalso. apply ON. specialize (X 1). cbn [nth] in X. apply X; [lia|left; reflexivity|]. split; [|split]; discriminate.
    + intros X. contradiction.
Qed.

Definition all_are (c : nat) : fmla :=
  and_PFmla (eqc_PFmlaVbl [2; 2; 2] 0 c) (and_PFmla (eqc_PFmlaVbl [2; 2; 2] 1 c) (eqc_PFmlaVbl [2; 2; 2] 2 c)).
Definition agreement : system :=
  mkSystem ring3 (or_PFmla (all_are 0) (all_are 1)) (Cst true) (Cst false) false true false.

Lemma agreement_holds : forall s, ok [2; 2; 2] s -> (holds (s_invariant agreement) s <-> s = [0; 0; 0] \/ s = [1; 1; 1]).
Proof.
  intros s S. apply in_assignments in S. change (assignments [2; 2; 2]) with
    [[0; 0; 0]; [0; 0; 1]; [0; 1; 0]; [0; 1; 1]; [1; 0; 0]; [1; 0; 1]; [1; 1; 0]; [1; 1; 1]] in S.
  cbn [In] in S. unfold holds, meaning. repeat (destruct S as [<-|S]; [vm_compute; split; intros H; auto; try (destruct H; discriminate); discriminate|]). destruct S.
Qed.
Lemma agreement_ok : system_ok agreement.
Proof.
  split.
  - apply ring3_ok.
  - intros b i b' i' q B I B' I' Q. unfold meaning. cbn [agreement s_invariant].
    unfold all_are. rewrite !eval_or, !eval_and, !(ev_eqc [2; 2; 2]) by (auto; cbn; lia). reflexivity.
  - intros b i b' i' q B I B' I' Q. cbn. tauto.
  - intros b b' i q B B' I Q. cbn. tauto.
  - intros p [<-|[<-|[<-|[]]]] b b' i q B B' I Q; cbn; tauto.
Qed.
Lemma agreement_plain : no_shadow_variables agreement.
Proof. intros x. do 3 (destruct x as [|x]; [discriminate|]). cbn. destruct x; discriminate. Qed.
Lemma agreement_worthwhile : worthwhile agreement.
Proof.
  split.
  - exists [0; 0; 0]. split; [repeat constructor|]. split; [|reflexivity]. apply agreement_holds; [repeat constructor|auto].
  - left. exists [0; 0; 1]. split; [repeat constructor|]. rewrite agreement_holds by repeat constructor. intros [H|H]; discriminate.
Qed.
Lemma agreement_stands : stands_for agreement 0 0 (plain 0 [2; 0]).
Proof.
  split; [reflexivity|]. split; [reflexivity|]. left. split; [|intros; lia]. repeat constructor; cbn; intuition discriminate.
Qed.
Lemma ring3_steps : forall r l o n s t, r < 8 -> vals (act_of (kinds ring3) r) = [l; o; n] -> o <> n -> n < 2 ->
  (act_step agreement false r s t <->
   ok [2; 2; 2] s /\ ok [2; 2; 2] t /\ exists p, In p (pcs ring3) /\ class_move ring3 r p s t).
Proof.
  intros r l o n s t R8 VA ON N2. unfold act_step. cbn [agreement s_net ring3 vdoms].
  assert (AI : r < actions_in (kinds ring3)) by (replace (actions_in (kinds ring3)) with 8 by (vm_compute; reflexivity); lia).
  assert (RR : representative_action_index (kinds ring3) r = Some r) by (do 8 (destruct r as [|r]; [vm_compute; reflexivity|]); lia).
  split; intros (S & T & H); (split; [auto|]); (split; [auto|]).
  - apply C64_union_cached in H; auto using ring3_ok. destruct H as (j & Hj & H).
    destruct (nth_error (pcs ring3) j) as [p|] eqn:E; [|apply nth_error_None in E; lia].
    apply (C64_sound ring3 r false j p) in H; auto using ring3_ok. exists p. split; auto. eapply nth_error_In; eauto.
  - destruct H as (p & Hp & M). apply C64_union_cached; auto using ring3_ok. apply In_nth_error in Hp. destruct Hp as (j & Hj). exists j.
    split; [apply nth_error_Some; congruence|]. apply (C64_complete ring3 r false j p); auto using ring3_ok.
    intros _ u U M'. apply (ring3_moves r l o n j p u s) in M'; auto. apply (ring3_moves r l o n j p s t) in M; auto.
    destruct M' as (_ & _ & M' & _), M as (_ & M & _). congruence.
Qed.

Example C65_example :
  system_ok agreement /\ no_shadow_variables agreement /\ worthwhile agreement /\
  In 5 (candidates_of agreement false) /\ In 6 (rejected_of agreement false).
Proof.
  split; [apply agreement_ok|]. split; [apply agreement_plain|]. split; [apply agreement_worthwhile|].
  assert (EX : forall r, r < 8 -> representative_action_index (kinds ring3) r = Some r).
  { intros r Hr. do 8 (destruct r as [|r]; [vm_compute; reflexivity|]). lia. }
  assert (AI : actions_in (kinds ring3) = 8) by (vm_compute; reflexivity).
  split.
  - destruct (C65_exact agreement false 5 0 (plain 0 [2; 0]) agreement_ok agreement_plain agreement_worthwhile) as (H & _ & _).
    + cbn [agreement s_net]. lia.
    + apply EX. lia.
    + exact agreement_stands.
    + apply H. clear H.
      assert (ST : act_step agreement false 5 [1; 0; 0] [1; 1; 0]).
      { apply (ring3_steps 5 1 0 1); try reflexivity; try lia. split; [repeat constructor|]. split; [repeat constructor|].
        exists (plain 0 [0; 1]). split; [cbn; auto|]. apply (ring3_moves 5 1 0 1 1); try reflexivity; try lia; try (repeat constructor).
        intros x Hx NE. destruct x as [|[|[|x]]]; cbn in *; auto; lia. }
      split; [eauto|]. split; [|split].
      * intros [F|[((x & i & q & _ & _ & _ & F) & _)|[F|(s & t & _ & _ & F)]]].
        -- assert (P0 : process_step ring3 (action_xfmlae ring3 false 5) 0 [0; 0; 1] [1; 0; 1]).
           { apply (C64_complete ring3 5 false 0 (plain 0 [2; 0])); auto using ring3_ok; try (rewrite AI; lia); try (apply EX; lia); try (repeat constructor).
             - apply (ring3_moves 5 1 0 1 0); try reflexivity; try lia; try (repeat constructor).
               intros x Hx NE. destruct x as [|[|[|x]]]; cbn in *; auto; lia.
             - intros _ u U M. apply (ring3_moves 5 1 0 1 0) in M; try reflexivity; try lia; try (repeat constructor); auto.
               destruct M as (_ & _ & M & _). discriminate. }
           assert (X : steps (p_forbid (plain 0 [2; 0])) [0; 0; 1] [1; 0; 1]) by (apply F; split; [repeat constructor|split; [repeat constructor|exact P0]]). discriminate.
        -- discriminate.
        -- destruct (F 1) as (_ & X & _); [cbn; lia|left; reflexivity|].
           assert (V : visible (nth 1 (accs (nth (p_kind (plain 0 [2; 0])) (kinds (s_net agreement)) pc0)) acc0)) by (split; [|split]; discriminate).
           specialize (X V). vm_compute in X. discriminate.
        -- apply F. reflexivity.
      * exists [1; 0; 0], [1; 1; 0]. split; auto. reflexivity.
      * intros (_ & [(s & t & SS & (L & _) & _)|(_ & s & t & SS & (L & _) & _)]); apply (ring3_steps 5 1 0 1) in SS; try reflexivity; try lia;
          destruct SS as (S & T & p & Hp & M); apply In_nth_error in Hp; destruct Hp as (j & Hj);
          apply (ring3_moves 5 1 0 1 j) in M; try reflexivity; try lia; auto; apply agreement_holds in L; auto;
          destruct M as (M1 & M2 & _); unfold value in *; apply nth_error_In in Hj; destruct Hj as [<-|[<-|[<-|[]]]]; destruct L as [-> | ->]; discriminate.
  - destruct (C65_exact agreement false 6 0 (plain 0 [2; 0]) agreement_ok agreement_plain agreement_worthwhile) as (_ & _ & H).
    + cbn [agreement s_net]. lia.
    + apply EX. lia.
    + exact agreement_stands.
    + apply H. clear H.
      assert (ST : act_step agreement false 6 [1; 1; 1] [1; 0; 1]).
      { apply (ring3_steps 6 1 1 0); try reflexivity; try lia. split; [repeat constructor|]. split; [repeat constructor|].
        exists (plain 0 [0; 1]). split; [cbn; auto|]. apply (ring3_moves 6 1 1 0 1); try reflexivity; try lia; try (repeat constructor).
        intros x Hx NE. destruct x as [|[|[|x]]]; cbn in *; auto; lia. }
      split; [eauto|]. right. split.
      * exists [1; 1; 1], [1; 0; 1]. split; auto. reflexivity.
      * split; [reflexivity|]. left. exists [1; 1; 1], [1; 0; 1]. split; auto. split.
        -- split; [|reflexivity]. apply agreement_holds; [repeat constructor|auto].
        -- rewrite agreement_holds by repeat constructor. intros [X|X]; discriminate.
Qed.

(** ** Forbidden moves
    One process with two interchangeable links, each with a bit it writes.  It is forbidden to do
    anything when the first bit is 0 and the second one is 1. *)
Definition held : process :=
  mkProcess 0 [0; 1] (Cst true) (Cst false) (Cst false) (Cst false)
    (and_PFmla (eqc_PFmlaVbl [2; 2] 0 0) (eqc_PFmlaVbl [2; 2] 1 1)).
Definition pair_net : network :=
  mkNetwork [2; 2] [Direct; Direct] [declare [Symmetric 2 [bit WriteAccess]]] [held].
Definition pair_system : system :=
  mkSystem pair_net (and_PFmla (eqc_PFmlaVbl [2; 2] 0 0) (eqc_PFmlaVbl [2; 2] 1 0)) (Cst true) (Cst false) false true false.

Lemma pair_ok : net_ok pair_net.
Proof.
  split; cbn [vdoms vroles kinds pcs pair_net].
  - repeat constructor.
  - intros p [<-|[]]. cbn. lia.
  - intros p [<-|[]]. reflexivity.
  - intros p i [<-|[]] Hi. cbn in Hi. destruct i as [|[|i]]; cbn; repeat split; lia.
  - intros k [<-|[]]. apply C40_declared_processes. intros n vs [H|[]]. injection H as <- <-. lia.
  - intros p [<-|[]] b i b' i' q _ _ _ _ _. cbn. tauto.
  - intros p [<-|[]] f [<-|[<-|[<-|[]]]].
    + split; [intros b b' i q _ _ _ _|intros b i i' q _ _ _ _ _]; cbn; tauto.
    + split; [intros b b' i q _ _ _ _|intros b i i' q _ _ _ _ _]; cbn; tauto.
    + split; [intros b b' i q B B' I Q|intros b i i' q B I I' Q _]; unfold meaning; cbn [held p_forbid];
        rewrite !eval_and, !(ev_eqc [2; 2]) by (auto; cbn; lia); reflexivity.
Qed.

Lemma pair_class : represented_actions (kinds pair_net) 4 = [4; 8].
Proof. vm_compute. reflexivity. Qed.

Lemma pair_local : forall g0 g1 s t, g0 + g1 = 1 -> ok [2; 2] s -> ok [2; 2] t ->
  (local_move pair_net held [g0; g1; 0; 0] s t <-> s = [g0; g1] /\ t = [0; 0]).
Proof.
  intros g0 g1 s t GG S T.
  assert (LS : length s = 2) by (apply (ok_length _ _ S)). assert (LT : length t = 2) by (apply (ok_length _ _ T)).
  destruct s as [|s0 [|s1 [|? ?]]]; cbn in LS; try lia. destruct t as [|t0 [|t1 [|? ?]]]; cbn in LT; try lia.
  assert (VIS : forall i, i < 2 -> visible (access_at pair_net held i) /\ writable (access_at pair_net held i) /\ a_type (access_at pair_net held i) = WriteAccess).
  { intros i Hi. do 2 (destruct i as [|i]; [cbn; unfold visible, writable; cbn; intuition discriminate|]). lia. }
  split.
  - intros [G A _ _ _].
    pose proof (G 0 ltac:(cbn; lia) (proj1 (VIS 0 ltac:(lia)))) as G0. pose proof (G 1 ltac:(cbn; lia) (proj1 (VIS 1 ltac:(lia)))) as G1.
    assert (AA : forall i, i < 2 -> value [t0; t1] held i = 0).
    { intros i Hi. destruct (VIS i Hi) as (_ & W & TY). rewrite (A i Hi W) by (rewrite TY; discriminate).
      do 2 (destruct i as [|i]; [reflexivity|]). lia. }
    pose proof (AA 0 ltac:(lia)) as A0. pose proof (AA 1 ltac:(lia)) as A1. cbn in G0, G1, A0, A1. subst. auto.
  - intros (ES & ET). injection ES as -> ->. injection ET as -> ->. split.
    + intros i Hi _. do 2 (destruct i as [|i]; [reflexivity|]). cbn in Hi. lia.
    + intros i Hi _ _. do 2 (destruct i as [|i]; [reflexivity|]). cbn in Hi. lia.
    + intros x Hx NO _. exfalso. apply NO. exists x. cbn in Hx. destruct (VIS x Hx) as (_ & W & _). split; [exact Hx|]. split; auto.
      do 2 (destruct x as [|x]; [reflexivity|]). lia.
    + intros _ X. exfalso.
      pose proof (X 0 ltac:(cbn; lia) (proj1 (proj2 (VIS 0 ltac:(lia)))) (proj1 (VIS 0 ltac:(lia)))) as X0.
      pose proof (X 1 ltac:(cbn; lia) (proj1 (proj2 (VIS 1 ltac:(lia)))) (proj1 (VIS 1 ltac:(lia)))) as X1.
      change (g0 = 0) in X0. change (g1 = 0) in X1. lia.
    + intros (i & Hi & _ & X). exfalso. destruct (VIS i Hi) as (_ & _ & Y). congruence.
Qed.

Lemma pair_actions : 4 < actions_in (kinds pair_net) /\ representative_action_index (kinds pair_net) 4 = Some 4.
Proof. split; [apply Nat.ltb_lt|]; vm_compute; reflexivity. Qed.

Lemma pair_move : forall s t, ok [2; 2] s -> ok [2; 2] t ->
  (class_move pair_net 4 held s t <-> (s = [0; 1] \/ s = [1; 0]) /\ t = [0; 0]).
Proof.
  intros s t S T. destruct pair_actions as (A & R). rewrite <- (class_iff pair_net pair_ok 4 A R). rewrite pair_class. unfold move.
  assert (E4 : act_of (kinds pair_net) 4 = {| act_pc := 0; vals := [0; 1; 0; 0] |}) by (vm_compute; reflexivity).
  assert (E8 : act_of (kinds pair_net) 8 = {| act_pc := 0; vals := [1; 0; 0; 0] |}) by (vm_compute; reflexivity).
  split.
  - intros (r & [<-|[<-|[]]] & _ & M).
    + rewrite E4 in M. cbn [vals] in M. apply pair_local in M; auto. tauto.
    + rewrite E8 in M. cbn [vals] in M. apply pair_local in M; auto. tauto.
  - intros ([E|E] & ET); [exists 4|exists 8]; (split; [cbn; auto|]); [rewrite E4|rewrite E8]; (split; [reflexivity|]); apply pair_local; auto.
Qed.

Lemma pair_proc : forall lw s t, ok [2; 2] s -> ok [2; 2] t ->
  (process_step pair_net (action_xfmlae pair_net lw 4) 0 s t <-> (s = [0; 1] \/ s = [1; 0]) /\ t = [0; 0]).
Proof.
  intros lw s t S T. destruct pair_actions as (A & R). rewrite <- pair_move by auto. split.
  - apply (C64_sound pair_net 4 lw 0 held); auto using pair_ok.
  - intros M. apply (C64_complete pair_net 4 lw 0 held); auto using pair_ok. intros _ u U M'. apply pair_move in M'; auto. apply pair_move in M; auto.
    destruct M' as (_ & ->), M as ([M|M] & _); discriminate.
Qed.
Lemma pair_steps : forall lw s t, act_step pair_system lw 4 s t <-> ok [2; 2] s /\ ok [2; 2] t /\ (s = [0; 1] \/ s = [1; 0]) /\ t = [0; 0].
Proof.
  intros lw s t. destruct pair_actions as (A & R). unfold act_step. cbn [pair_system s_net pair_net vdoms].
  split; intros (S & T & H); (split; [auto|]); (split; [auto|]).
  - destruct lw.
    + apply C64_union_lightweight in H; auto using pair_ok. destruct H as ((p & [<-|[]] & M) & _). apply pair_move; auto.
    + apply C64_union_cached in H; auto using pair_ok. destruct H as (j & Hj & H). cbn in Hj. assert (j = 0) by lia. subst j. apply (pair_proc false); auto.
  - destruct lw.
    + apply C64_union_lightweight; auto using pair_ok. split.
      * exists held. split; [cbn; auto|]. apply pair_move; auto.
      * intros _ (p & u & [<-|[]] & U & M). apply pair_move in M; auto. destruct M as (_ & ->), H as ([H|H] & _); discriminate.
    + apply C64_union_cached; auto using pair_ok. exists 0. split; [cbn; lia|]. apply pair_proc; auto.
Qed.
Lemma pair_holds : forall s, ok [2; 2] s -> (holds (s_invariant pair_system) s <-> s = [0; 0]).
Proof.
  intros s S. apply in_assignments in S. change (assignments [2; 2]) with [[0; 0]; [0; 1]; [1; 0]; [1; 1]] in S.
  cbn [In] in S. unfold holds, meaning. repeat (destruct S as [<-|S]; [vm_compute; split; intros H; auto; discriminate|]). destruct S.
Qed.

(** Refuted: "what is forbidden does not happen".  An action is rejected only if all its moves (with
    all variants of it) are forbidden; if some are not, it stays a candidate with all its moves. *)
Theorem C65_forbidden_refuted : exists S a j p s t,
  system_ok S /\ no_shadow_variables S /\ worthwhile S /\
  stands_for S (act_pc (act_of (kinds (s_net S)) a)) j p /\
  (forall lightweight, In a (candidates_of S lightweight)) /\
  (forall lightweight, rep_step S lightweight a j s t) /\ steps (p_forbid p) s t.
Proof.
  assert (OK : system_ok pair_system).
  { split.
    - apply pair_ok.
    - intros b i b' i' q B I B' I' Q. unfold meaning. cbn [pair_system s_invariant].
      rewrite !eval_and, !(ev_eqc [2; 2]) by (auto; cbn; lia). reflexivity.
    - intros b i b' i' q B I B' I' Q. cbn. tauto.
    - intros b b' i q B B' I Q. cbn. tauto.
    - intros p [<-|[]] b b' i q B B' I Q; cbn; tauto. }
  assert (NS : no_shadow_variables pair_system) by (intros x; do 2 (destruct x as [|x]; [discriminate|]); cbn; destruct x; discriminate).
  assert (WW : worthwhile pair_system).
  { split.
    - exists [0; 0]. split; [repeat constructor|]. split; [|reflexivity]. apply pair_holds; [repeat constructor|auto].
    - left. exists [0; 1]. split; [repeat constructor|]. rewrite pair_holds by repeat constructor. discriminate. }
  assert (SF : stands_for pair_system (act_pc (act_of (kinds (s_net pair_system)) 4)) 0 held).
  { split; [reflexivity|]. split; [vm_compute; reflexivity|]. left. split; [|intros; lia]. repeat constructor; cbn; intuition discriminate. }
  destruct pair_actions as (A & R).
  exists pair_system, 4, 0, held, [0; 1], [0; 0]. split; auto. split; auto. split; auto. split; auto. split; [|split].
  - intros lw. destruct (C65_exact pair_system lw 4 0 held OK NS WW A R SF) as (H & _ & _). apply H. clear H.
    assert (ST : act_step pair_system lw 4 [1; 0] [0; 0]) by (apply pair_steps; split; [repeat constructor|split; [repeat constructor|auto]]).
    split; [eauto|]. split; [|split].
    + intros [F|[((x & i & q & _ & _ & _ & F) & _)|[F|(s & t & _ & _ & F)]]].
      * assert (X : steps (p_forbid held) [1; 0] [0; 0]).
        { apply F. split; [repeat constructor|]. split; [repeat constructor|]. apply pair_proc; [repeat constructor|repeat constructor|auto]. }
        discriminate.
      * discriminate.
      * destruct (F 1) as (_ & X & _); [cbn; lia|left; reflexivity|].
        assert (V : visible (nth 1 (accs (nth (p_kind held) (kinds (s_net pair_system)) pc0)) acc0)) by (split; [|split]; discriminate).
        specialize (X V). vm_compute in X. discriminate.
      * apply F. reflexivity.
    + exists [1; 0], [0; 0]. split; auto. reflexivity.
    + intros (_ & [(s & t & SS & (L & _) & _)|(_ & s & t & SS & (L & _) & _)]); apply pair_steps in SS; destruct SS as (S & T & M & _);
        apply pair_holds in L; auto; subst s; destruct M; discriminate.
  - intros lw. split; [repeat constructor|]. split; [repeat constructor|]. apply pair_proc; [repeat constructor|repeat constructor|auto].
  - reflexivity.
Qed.
Print Assumptions C65_forbidden_refuted.
