(** C65: which actions become candidates. *)
From Coq Require Import List Arith Bool Lia.
From Verif Require Import FinLib Radix FmlaModel FmlaSpec FmlaProofs FmlaProofs2 FmlaProofs3 FmlaProofs4
  ActModel ActSpec ActProofs ActProofs4 ActProps NetModel NetSpec NetProofs NetProofs2 NetProofs3 NetProofs4 NetProps
  CandModel CandSpec CandProofs CandProofs2.
Import ListNotations.

Lemma stands_memb : forall S k j p, system_ok S -> stands_for S k j p -> some_memb (s_net S) k = Some (j, p).
Proof.
  intros S k j p HS (H1 & H2 & H3). pose proof (some_memb_spec S HS k) as M.
  assert (HP : In p (pcs (s_net S))) by (eapply nth_error_In; eauto).
  destruct (some_memb (s_net S) k) as [(i, q)|]; [|exfalso; apply (M p); auto].
  destruct M as (M1 & M2 & M3). assert (HQ : In q (pcs (s_net S))) by (eapply nth_error_In; eauto).
  assert (E : i = j).
  { destruct (Nat.lt_trichotomy i j) as [L|[L|L]]; auto; exfalso.
    - destruct M3 as [(A & B)|(A & B)], H3 as [(C & D)|(C & D)]; [apply (D i q)|apply (C q)|apply (A p)|apply (D i q)]; auto.
    - destruct M3 as [(A & B)|(A & B)], H3 as [(C & D)|(C & D)]; [apply (B j p)|apply (C q)|apply (A p)|apply (B j p)]; auto. }
  subst i. congruence.
Qed.

(** ** The lists *)
Definition candidates_of (S : system) (lightweight : bool) : list nat := fst (fst (snd (candidate_actions S lightweight))).
Definition deleted_of (S : system) (lightweight : bool) : list nat := snd (fst (snd (candidate_actions S lightweight))).
Definition rejected_of (S : system) (lightweight : bool) : list nat := snd (snd (candidate_actions S lightweight)).

(** There is something to do: a legitimate state, and an illegitimate one or a variable that does
    not occur both in the specification and in the implementation. *)
Definition worthwhile (S : system) : Prop :=
  (exists s, ok (vdoms (s_net S)) s /\ legitimate S s) /\
  ((exists s, ok (vdoms (s_net S)) s /\ ~ holds (s_invariant S) s) \/
   exists x, x < length (vdoms (s_net S)) /\ nth x (vroles (s_net S)) Direct <> Direct).

Lemma worthwhile_tests : forall S, system_ok S -> worthwhile S ->
  sat_ck (vdoms (s_net S)) (s_invariant S) = true /\ sat_ck (vdoms (s_net S)) (hi_invariant S) = true /\
  tautology_ck (vdoms (s_net S)) (s_invariant S) && negb (shadow_puppet_synthesis S) = false.
Proof.
  intros S HS ((s & S1 & S2 & S3) & W). pose proof (inh _ (so_net S HS)) as INH. split; [|split].
  - apply (sat_state _ INH); [apply so_invariant; auto|]. exists s. auto.
  - apply (sat_state _ INH); [apply hi_state; auto|]. exists s. split; auto. apply hi_holds. split; auto.
  - apply not_true_iff_false. intros E. apply andb_true_iff in E. destruct E as (E1 & E2). apply negb_true_iff in E2.
    destruct W as [(t & T & NT)|(x & Hx & R)].
    + apply NT. unfold holds, meaning. destruct (s_invariant S) as [b|f]; cbn in *; auto.
      unfold mdd_is_tautology in E1. rewrite forallb_forall in E1. 
      apply eqb_prop. apply E1. apply in_assignments, join_range; auto.
    + enough (shadow_puppet_synthesis S = true) by congruence. apply existsb_exists. exists x. split; [apply in_seq; cbn; lia|].
      unfold vbl_direct, role_at. destruct (nth x _ Direct); cbn; congruence.
Qed.

Lemma lists_in : forall S lw a o, a < actions_in (kinds (s_net S)) -> representative_action_index (kinds (s_net S)) a = Some a ->
  (In a (listed_as S o lw) <-> judge S lw a = o).
Proof.
  intros S lw a o Ha Hr. unfold listed_as. rewrite filter_In, in_seq, total_acts_eq, andb_true_iff. unfold represents_itself.
  rewrite Hr, Nat.eqb_refl. split.
  - intros (_ & _ & H). destruct (judge S lw a), o; try discriminate; auto.
  - intros ->. split; [lia|]. split; auto. destruct o; auto.
Qed.

Lemma holds_dec : forall f s, holds f s \/ ~ holds f s.
Proof. intros f s. unfold holds, meaning. destruct (eval f _); auto. Qed.
Lemma steps_dec : forall f s t, steps f s t \/ ~ steps f s t.
Proof. intros f s t. unfold steps, meaning. destruct (eval f _); auto. Qed.

Lemma lists_facts : forall S lw o a, system_ok S -> In a (listed_as S o lw) ->
  a < actions_in (kinds (s_net S)) /\ representative_action_index (kinds (s_net S)) a = Some a /\ judge S lw a = o /\
  (o <> Skipped -> some_memb (s_net S) (act_pc (act_of (kinds (s_net S)) a)) <> None).
Proof.
  intros S lw o a HS HA. unfold listed_as in HA. rewrite filter_In, in_seq, total_acts_eq, andb_true_iff in HA.
  destruct HA as (B & R & V). unfold represents_itself in R.
  destruct (representative_action_index (kinds (s_net S)) a) as [r|] eqn:E; [|discriminate]. apply Nat.eqb_eq in R. subst r.
  assert (J : judge S lw a = o) by (destruct (judge S lw a), o; try discriminate; auto).
  split; [lia|]. split; auto. split; auto. intros NO X. apply NO. rewrite <- J. unfold judge. cbv zeta. rewrite X. reflexivity.
Qed.

Lemma filter_seq_increasing : forall f n s i i', i < i' -> i' < length (filter f (seq s n)) ->
  nth i (filter f (seq s n)) 0 < nth i' (filter f (seq s n)) 0.
Proof.
  intros f n. induction n as [|n IH]; intros s i i' L B; cbn in *; [lia|]. destruct (f s); auto. cbn in B. destruct i' as [|i']; [lia|].
  destruct i as [|i]; cbn; [|apply IH; lia].
  assert (X : In (nth i' (filter f (seq (Datatypes.S s) n)) 0) (filter f (seq (Datatypes.S s) n))) by (apply nth_In; lia).
  apply filter_In in X. destruct X as (X & _). apply in_seq in X. lia.
Qed.

Lemma worthwhile_dec : forall S, system_ok S ->
  ((True /\ worthwhile S) \/
   ((sat_ck (vdoms (s_net S)) (s_invariant S) = false \/ sat_ck (vdoms (s_net S)) (hi_invariant S) = false) /\
     ~ exists s, ok (vdoms (s_net S)) s /\ legitimate S s) \/
   ((sat_ck (vdoms (s_net S)) (s_invariant S) = true /\ sat_ck (vdoms (s_net S)) (hi_invariant S) = true /\
     tautology_ck (vdoms (s_net S)) (s_invariant S) && negb (shadow_puppet_synthesis S) = true) /\
     (exists s, ok (vdoms (s_net S)) s /\ legitimate S s) /\ ~ worthwhile S)).
Proof.
  intros S HS. pose proof (inh _ (so_net S HS)) as INH.
  assert (HH : sat_ck (vdoms (s_net S)) (hi_invariant S) = true <-> exists s, ok (vdoms (s_net S)) s /\ legitimate S s).
  { rewrite (sat_state _ INH) by (apply hi_state; auto). split; intros (s & H1 & H2); exists s; split; auto; apply hi_holds; auto. }
  destruct (sat_ck (vdoms (s_net S)) (hi_invariant S)) eqn:SH.
  2: { right. left. split; auto. intros H. apply HH in H. discriminate. }
  assert (LG := proj1 HH eq_refl).
  assert (SI : sat_ck (vdoms (s_net S)) (s_invariant S) = true).
  { apply (sat_state _ INH); [apply so_invariant; auto|]. destruct LG as (s & H1 & H2 & _). eauto. }
  destruct (tautology_ck (vdoms (s_net S)) (s_invariant S) && negb (shadow_puppet_synthesis S)) eqn:TT.
  - right. right. split; auto. split; auto. intros W. destruct (worthwhile_tests S HS W) as (_ & _ & T3). congruence.
  - left. split; auto. split; auto. apply andb_false_iff in TT. destruct TT as [TT|TT].
    + left. destruct (existsb (fun s => negb (eval (s_invariant S) (join s s s))) (assignments (vdoms (s_net S)))) eqn:E.
      * apply existsb_exists in E. destruct E as (s & H1 & H2). apply in_assignments in H1. apply negb_true_iff in H2. exists s. split; auto.
        unfold holds, meaning. congruence.
      * exfalso. enough (tautology_ck (vdoms (s_net S)) (s_invariant S) = true) by congruence. apply tautology_iff; auto.
        intros b i q B I Q. unfold meaning. rewrite (state_eval _ _ (so_invariant S HS) b i q B I Q).
        destruct (eval (s_invariant S) (join q q q)) eqn:F; auto. exfalso.
        enough (existsb (fun s => negb (eval (s_invariant S) (join s s s))) (assignments (vdoms (s_net S))) = true) by congruence.
        apply existsb_exists. exists q. split; [apply in_assignments; auto|]. rewrite F. auto.
    + right. apply negb_false_iff in TT. apply existsb_exists in TT. destruct TT as (x & H1 & H2). apply in_seq in H1. exists x. split; [cbn in *; lia|].
      unfold vbl_direct, role_at in H2. destruct (nth x (vroles (s_net S)) Direct); cbn in H2; congruence.
Qed.

(** An action (the representative of its variants) is a candidate, deleted or rejected exactly for
    these reasons. *)
Theorem C65_exact : forall S lightweight a j p,
  system_ok S -> no_shadow_variables S -> worthwhile S ->
  a < actions_in (kinds (s_net S)) -> representative_action_index (kinds (s_net S)) a = Some a ->
  stands_for S (act_pc (act_of (kinds (s_net S)) a)) j p ->
  let moves := exists s t, act_step S lightweight a s t in
  let bad := bad_anywhere S lightweight a j p in
  let assumed := starts_assumed S lightweight a in
  let bad_later := bad_when_legitimate S lightweight a in
  (In a (candidates_of S lightweight) <-> moves /\ ~ bad /\ assumed /\ ~ bad_later) /\
  (In a (deleted_of S lightweight) <-> moves /\ ~ bad /\ ~ assumed) /\
  (In a (rejected_of S lightweight) <-> moves /\ (bad \/ (assumed /\ bad_later))).
Proof.
  intros S lw a j p HS NS W Ha Hr HP. cbv zeta.
  pose proof (stands_memb S _ j p HS HP) as HM.
  pose proof (judge_means S HS lw a Ha Hr NS (proj1 W) j p HM) as J.
  destruct (worthwhile_tests S HS W) as (T1 & T2 & T3).
  unfold candidates_of, deleted_of, rejected_of, candidate_actions. rewrite T1, T2, T3. cbn [negb fst snd].
  rewrite !lists_in by auto. destruct (judge S lw a); cbn [verdict_means] in J; repeat split; try discriminate; try tauto.
Qed.
Print Assumptions C65_exact.

(** Whatever the roles of variables are: a candidate can be executed where the assumption holds, is
    not ruled out by the constraints on its process, never leaves the assumption and, where the
    invariant is to be kept literally, does no harm in legitimate states. *)
Theorem C65_sound : forall S lightweight a,
  system_ok S -> In a (candidates_of S lightweight) ->
  exists j p, stands_for S (act_pc (act_of (kinds (s_net S)) a)) j p /\
    ~ forbidden S lightweight a j p /\ ~ not_permitted S lightweight a j p /\
    starts_assumed S lightweight a /\
    forall s t, act_step S lightweight a s t ->
      (holds (s_assume S) s -> holds (s_assume S) t) /\
      (s_direct_scope S = true -> legitimate S s ->
         legitimate S t /\ (s_future_closed S = false -> steps (s_shadow S) s t \/ specified_part_kept S s t)).
Proof.
  intros S lw a HS HA. pose proof (inh _ (so_net S HS)) as INH.
  unfold candidates_of, candidate_actions in HA.
  destruct (sat_ck _ (s_invariant S)); cbn [negb] in HA; [|destruct HA].
  destruct (sat_ck _ (hi_invariant S)) eqn:SH; cbn [negb] in HA; [|destruct HA].
  destruct (_ && _); [destruct HA|]. cbn [fst snd] in HA.
  apply (sat_state _ INH) in SH; [|apply hi_state; auto]. destruct SH as (l & L & HL).
  assert (LG : exists s, ok (vdoms (s_net S)) s /\ legitimate S s) by (exists l; split; auto; apply hi_holds; auto).
  destruct (lists_facts S lw Kept a HS HA) as (Ha & Hr & J & NN).
  destruct (some_memb (s_net S) (act_pc (act_of (kinds (s_net S)) a))) as [(j, p)|] eqn:HM; [|exfalso; apply NN; auto; discriminate].
  pose proof (some_memb_spec S HS (act_pc (act_of (kinds (s_net S)) a))) as SM. rewrite HM in SM.
  destruct (judge_sound S HS lw a Ha Hr LG j p HM J) as (_ & H1 & H2 & H3 & H4 & H5).
  exists j, p. split; auto. split; auto. split; auto. split; auto. intros s t ST.
  assert (AS : holds (s_assume S) s -> holds (s_assume S) t).
  { intros A. destruct (holds_dec (s_assume S) t) as [|N]; auto. exfalso. apply H3. exists s, t. auto. }
  split; auto. intros DS LS. split.
  - split; [|apply AS, LS]. destruct (holds_dec (s_invariant S) t) as [|N]; auto. exfalso. apply H5. split; auto. left. exists s, t. auto.
  - intros FC. destruct ST as (S' & T & ST).
    destruct (steps_dec (s_shadow S) s t) as [|N1]; auto. right.
    apply (shadow_self_steps S a Ha s t S' T). destruct (steps_dec (shadow_self S) s t) as [|N2]; auto. exfalso. apply H5. split; auto. right. split; auto.
    exists s, t. split; [split; auto|]. split; auto. split; auto. rewrite <- (shadow_self_steps S a Ha s t S' T). auto.
Qed.
Print Assumptions C65_sound.

(** Nothing else is listed: only numbers of actions that represent their variants and that some
    process can execute, each once and in increasing order, and in one list only. *)
Theorem C65_listed : forall S lightweight l,
  system_ok S ->
  In l [candidates_of S lightweight; deleted_of S lightweight; rejected_of S lightweight] ->
  (forall a, In a l -> a < actions_in (kinds (s_net S)) /\ representative_action_index (kinds (s_net S)) a = Some a /\
     exists j p, stands_for S (act_pc (act_of (kinds (s_net S)) a)) j p) /\
  (forall i i', i < i' -> i' < length l -> nth i l 0 < nth i' l 0).
Proof.
  intros S lw l HS HL.
  assert (E : l = [] \/ exists o, o <> Skipped /\ l = listed_as S o lw).
  { unfold candidates_of, deleted_of, rejected_of, candidate_actions in HL. 
    destruct (negb _); [cbn in HL; intuition|]. destruct (negb _); [cbn in HL; intuition|]. destruct (_ && _); [cbn in HL; intuition|].
    cbn [fst snd] in HL. right. destruct HL as [<-|[<-|[<-|[]]]]; [exists Kept|exists Deleted|exists Rejected]; split; auto; discriminate. }
  destruct E as [->|(o & NO & ->)]; [split; [intros a []|cbn; lia]|]. split.
  - intros a HA. destruct (lists_facts S lw o a HS HA) as (H1 & H2 & _ & H4). split; auto. split; auto.
    pose proof (some_memb_spec S HS (act_pc (act_of (kinds (s_net S)) a))) as SM.
    destruct (some_memb _ _) as [(j, p)|]; [eauto|exfalso; apply H4; auto].
  - unfold listed_as. apply filter_seq_increasing.
Qed.
Print Assumptions C65_listed.

Theorem C65_disjoint : forall S lightweight a,
  (In a (candidates_of S lightweight) -> ~ In a (deleted_of S lightweight) /\ ~ In a (rejected_of S lightweight)) /\
  (In a (deleted_of S lightweight) -> ~ In a (rejected_of S lightweight)).
Proof.
  intros S lw a. unfold candidates_of, deleted_of, rejected_of, candidate_actions.
  destruct (negb _); [cbn; tauto|]. destruct (negb _); [cbn; tauto|]. destruct (_ && _); [cbn; tauto|]. cbn [fst snd].
  unfold listed_as. rewrite !filter_In, !andb_true_iff. destruct (judge S lw a); cbn; intuition discriminate.
Qed.
Print Assumptions C65_disjoint.

(** The answer: there is nothing to synthesise with if there is no legitimate state or no candidate;
    if every state is legitimate (and no variable is special) nothing needs to be done. *)
Theorem C65_answer : forall S lightweight, system_ok S ->
  (fst (candidate_actions S lightweight) = true <->
   (exists s, ok (vdoms (s_net S)) s /\ legitimate S s) /\
   (~ worthwhile S \/ exists a, In a (candidates_of S lightweight))) /\
  (~ worthwhile S -> candidates_of S lightweight = [] /\ deleted_of S lightweight = [] /\ rejected_of S lightweight = []).
Proof.
  intros S lw HS. pose proof (inh _ (so_net S HS)) as INH.
  destruct (worthwhile_dec S HS) as [(E & W)|[(E & NW)|(E & LG & NW)]].
  - destruct (worthwhile_tests S HS W) as (T1 & T2 & T3). split; [|tauto].
    unfold candidates_of, candidate_actions. rewrite T1, T2, T3. cbn [negb fst snd]. rewrite negb_true_iff, Nat.eqb_neq.
    destruct W as (W1 & W2). destruct (listed_as S Kept lw) as [|x l]; cbn; split.
    + lia.
    + intros (_ & [N|(y & [])]). exfalso. apply N. split; auto.
    + intros _. split; auto. right. exists x. auto.
    + lia.
  - assert (X : candidate_actions S lw = (false, ([], [], []))) by (unfold candidate_actions; destruct E as [-> | ->]; cbn [negb]; auto; destruct (negb _); auto).
    unfold candidates_of, deleted_of, rejected_of. rewrite X. cbn [fst snd]. split; auto. split; [discriminate|tauto].
  - destruct E as (E1 & E2 & E3).
    assert (X : candidate_actions S lw = (true, ([], [], []))) by (unfold candidate_actions; rewrite E1, E2, E3; cbn [negb]; auto).
    unfold candidates_of, deleted_of, rejected_of. rewrite X. cbn [fst snd]. split; auto. split; auto.
Qed.
Print Assumptions C65_answer.

(** The test that the search applies to two actions done as one: the constraints on the process
    that stands for the kind allow the action. *)
Theorem C65_allowed_by_constraints : forall S lightweight a,
  system_ok S -> a < actions_in (kinds (s_net S)) -> representative_action_index (kinds (s_net S)) a = Some a ->
  (safe_ck (s_net S) lightweight a = true <->
   forall j p, stands_for S (act_pc (act_of (kinds (s_net S)) a)) j p ->
     ~ not_permitted S lightweight a j p /\
     ~ ((exists x i q, ok (vdoms (s_net S)) x /\ ok (vdoms (s_net S)) i /\ ok (vdoms (s_net S)) q /\ meaning (p_forbid p) x i q) /\
        forbidden S lightweight a j p)).
Proof.
  intros S lw a HS Ha Hr. pose proof (inh _ (so_net S HS)) as INH.
  unfold safe_ck. change (action_pcsymm_index (kinds (s_net S)) a) with (act_pc (act_of (kinds (s_net S)) a)).
  pose proof (some_memb_spec S HS (act_pc (act_of (kinds (s_net S)) a))) as SM.
  destruct (some_memb (s_net S) (act_pc (act_of (kinds (s_net S)) a))) as [(j, p)|] eqn:HM.
  2:{ split; auto. intros _ j p HP. rewrite (stands_memb S _ j p HS HP) in HM. discriminate. }
  cbn [snd]. transitivity (~ not_permitted S lw a j p /\
     ~ ((exists x i q, ok (vdoms (s_net S)) x /\ ok (vdoms (s_net S)) i /\ ok (vdoms (s_net S)) q /\ meaning (p_forbid p) x i q) /\
        forbidden S lw a j p)).
  2:{ split; [|intros H; apply H; exact SM]. intros H j' p' HP. apply (stands_memb S _ _ _ HS) in HP. rewrite HM in HP. injection HP as <- <-. exact H. }
  rewrite <- (b_permit S HS lw a Ha Hr j p HM), <- (b_forbid S HS lw a Ha Hr j p HM).
  pose proof (sat_iff (vdoms (s_net S)) INH (p_forbid p)) as SI. unfold meaning. rewrite <- SI. clear SI.
  destruct (_ && negb _); [intuition discriminate|]. destruct (sat_ck _ (p_forbid p)), (subseteq_ck _ _ (p_forbid p)); cbn; intuition discriminate.
Qed.
Print Assumptions C65_allowed_by_constraints.
