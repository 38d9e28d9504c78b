(** C44 and C63: what the search returns, and the blame for livelocks. *)
From Coq Require Import List Arith Bool Lia.
From Verif Require Import FinLib ReachModel ReachSpec StabModel RankModel ConflictModel ConflictSpec
  SearchModel SearchSpec SearchEx SearchProofs SearchProofs2 SearchProofs3 SearchProofs4.
Import ListNotations.

(** The actions a protocol may be built from: given ones and candidates that are
    not known to be impossible. *)
Definition usable (insts : list inst) (given : list nat) (f : family) (a : nat) : Prop :=
  In a given \/ (exists I, In I insts /\ In a (candidates0 I)) /\ ~ In a (impossible f).

(** The check that decides on success, for one instance and a list of actions in
    some order. *)
Definition passes_check (I : inst) (acts : list nat) : Prop :=
  exists l H n m, NoDup l /\ (forall a, In a l <-> In a acts) /\
    let xn := if synchronous (sopt I) then joint I l else xn_of I l in
    stabilization_ck _ (dec I) (univ I) (fuel_of I) (sysm I) (sopt I) (pcxn I l) xn xn = Some (Accepted _ H n m).

Lemma verified_passes : forall insts allowed given acts I,
  verified insts allowed given acts -> In I insts -> passes_check I acts.
Proof.
  intros insts allowed given acts I (_ & _ & ps & Hm & H) Hi. rewrite <- Hm in Hi. apply in_map_iff in Hi.
  destruct Hi as (p & Hq & Hi). destruct (H p Hi) as (H1 & H2 & v & n & m & H3). unfold verify_one in H3.
  destruct p as (J & p). cbn [projT1] in Hq. subst J. exists (actions p), v, n, m. split; auto.
Qed.

(** ** C44: a reported solution passed the stabilization check of every instance
    -- lightweight or not -- with the same set of actions, and consists of the
    given actions and of usable candidates.  For every conflict family, choice
    of actions, limits and coexistence relation, also with randomisation, shadow
    variables and synchronous execution. *)
Theorem C44_found_passed_the_check :
  forall place clash max_depth max_height max_conflict_sz rounds insts given f0 f1 base pick fuel f2 f3 acts,
    insts <> [] ->
    (forall I, In I insts -> proper I /\ NoDup (candidates0 I)) ->
    (forall t nd a, pick t nd = Some a -> exists p, In p (parts nd) /\ In a (p_cands p)) ->
    start place clash rounds f0 insts given = (f1, Good base) ->
    add_stabilization place clash max_depth max_height max_conflict_sz rounds base pick fuel f2 = (f3, Found acts) ->
    incl given acts /\ (forall a, In a acts -> usable insts given f0 a) /\
    forall I, In I insts -> passes_check I acts.
Proof.
  intros place clash md mh mc rounds insts given f0 f1 base pick fuel f2 f3 acts Hne Hp Hpick Hs Hf.
  assert (HP : forall I, In I insts -> proper I) by (intros; apply Hp; auto).
  apply start_good in Hs; auto; [|intros; apply Hp; auto].
  eapply (add_stabilization_found place clash md mh mc rounds insts HP) in Hf; eauto.
  pose proof Hf as (H1 & H2 & _). split; auto. split; auto.
  intros I HI. eapply verified_passes; eauto.
Qed.
Print Assumptions C44_found_passed_the_check.

Theorem C44_order_found_passed_the_check :
  forall place clash max_conflict_sz rounds insts given f0 f1 base fuel f2 f3 acts,
    insts <> [] ->
    (forall I, In I insts -> proper I /\ NoDup (candidates0 I)) ->
    start place clash rounds f0 insts given = (f1, Good base) ->
    try_order place clash max_conflict_sz rounds base fuel f2 base [] = (f3, Found acts) ->
    incl given acts /\ (forall a, In a acts -> usable insts given f0 a) /\
    forall I, In I insts -> passes_check I acts.
Proof.
  intros place clash mc rounds insts given f0 f1 base fuel f2 f3 acts Hne Hp Hs Hf.
  assert (HP : forall I, In I insts -> proper I) by (intros; apply Hp; auto).
  apply start_good in Hs; auto; [|intros; apply Hp; auto].
  eapply (try_order_found place clash mc rounds insts HP) in Hf; eauto.
  pose proof Hf as (H1 & H2 & _). split; auto. split; auto.
  intros I HI. eapply verified_passes; eauto.
Qed.
Print Assumptions C44_order_found_passed_the_check.

(** For plain instances the returned set, whatever its order, stabilises. *)
Theorem C44_found_stabilises :
  forall place clash max_depth max_height max_conflict_sz rounds insts given f0 f1 base pick fuel f2 f3 acts,
    insts <> [] ->
    (forall I, In I insts -> proper I /\ NoDup (candidates0 I)) ->
    (forall t nd a, pick t nd = Some a -> exists p, In p (parts nd) /\ In a (p_cands p)) ->
    start place clash rounds f0 insts given = (f1, Good base) ->
    add_stabilization place clash max_depth max_height max_conflict_sz rounds base pick fuel f2 = (f3, Found acts) ->
    forall I, In I insts -> plain I -> stabilises I acts.
Proof.
  intros place clash md mh mc rounds insts given f0 f1 base pick fuel f2 f3 acts Hne Hp Hpick Hs Hf.
  assert (HP : forall I, In I insts -> proper I) by (intros; apply Hp; auto).
  apply start_good in Hs; auto; [|intros; apply Hp; auto].
  eapply (add_stabilization_found place clash md mh mc rounds insts HP) in Hf; eauto.
  eapply verified_stabilises; eauto.
Qed.
Print Assumptions C44_found_stabilises.

(** The number of actions compared by a Claim after a revision (synthesis.cc:1487)
    is the same in all instances: the Claim holds whenever it is reached. *)
Theorem C44_instances_agree :
  forall place clash rounds insts given f0 f1 base,
    (forall I, In I insts -> proper I /\ NoDup (candidates0 I)) ->
    start place clash rounds f0 insts given = (f1, Good base) ->
    forall f adds dels f' ps,
      (forall a, In a adds -> usable insts given f0 a) ->
      rounds_loop place clash rounds f base (map (fun _ => adds) base) (map (fun _ => dels) base)
        (is_empty adds && is_empty dels) = (f', Good ps) ->
      same_sizes ps = true /\
      forall p q, In p ps -> In q ps -> forall a, In a (p_actions p) <-> In a (p_actions q).
Proof.
  intros place clash rounds insts given f0 f1 base Hp Hs f adds dels f' ps Ha Hr.
  assert (HP : forall I, In I insts -> proper I) by (intros; apply Hp; auto).
  apply start_good in Hs; auto; [|intros; apply Hp; auto].
  destruct Hs as (U & [L1 L2 L3 L4] & _ & Hc).
  assert (HI : invar insts (usable insts given f0) (U ++ adds) 0
             (mkRound base (map (fun _ => adds) base) (map (fun _ => dels) base) false
                                     (is_empty adds && is_empty dels) []) (U ++ adds)).
  { split; cbn [r_parts r_adds r_dels r_keep]; auto.
    - rewrite map_length, <- L1, map_length. auto.
    - rewrite map_length, <- L1, map_length. auto.
    - intros j p Hj x. rewrite nth_const by (apply nth_error_Some; congruence).
      rewrite in_app_iff, (L3 p) by (apply nth_error_In in Hj; auto). tauto.
    - apply incl_refl.
    - intros x Hx. apply in_app_or in Hx. destruct Hx; [apply L4|]; auto.
    - intros j p Hj x Hx. left. apply nth_error_In in Hj. apply (Hc p Hj x Hx).
    - intros _ j Hj. lia. }
  destruct (rounds_same place clash insts HP _ _ _ _ _ _ _ _ _ _ _ HI Hr) as (R1 & R2 & U' & R3 & R4 & R5).
  split.
  - refine (same_sizes_ok place clash insts (usable insts given f0) ps U' _). split; auto. intros p H. apply R5. auto.
  - intros p q H1 H2 a. destruct (R5 p H1) as (X1 & _), (R5 q H2) as (X2 & _). rewrite <- X1, <- X2. tauto.
Qed.
Print Assumptions C44_instances_agree.

(** Two instances, the second lightweight. *)
Definition ex_ax0 (a : nat) (s t : st4) : bool :=
  match a, s, t with 0, Z, L | 1, Z, L | 1, X, L | 2, X, L => true | _, _, _ => false end.
Definition ex_ax1 (a : nat) (s t : st4) : bool :=
  match a, s, t with 0, Z, X | 1, X, Z | 1, Z, L => true | _, _, _ => false end.
Definition ex_insts : list inst := [mk4 L_or_Y ex_ax0 [0; 1; 2] false; mk4 L_or_Y ex_ax1 [0; 1] true].

Example C44_example :
  exists f1 base f3,
    start first_place no_clash 50 empty_family ex_insts [] = (f1, Good base) /\
    add_stabilization first_place no_clash 0 0 0 50 base first_cand 50 f1 = (f3, Found [1]) /\
    sets f3 = [[0]] /\
    (forall I, In I ex_insts -> (proper I /\ NoDup (candidates0 I)) /\ plain I /\ stabilises I [1]).
Proof.
  assert (HP : forall I, In I ex_insts -> (proper I /\ NoDup (candidates0 I)) /\ plain I).
  { intros I [<-|[<-|[]]]; (split; [split; [apply mk4_proper|]|apply mk4_plain]);
      cbn; repeat constructor; simpl; intuition discriminate. }
  destruct (start first_place no_clash 50 empty_family ex_insts []) as (f1, [base| |]) eqn:E;
    try (vm_compute in E; discriminate).
  exists f1, base.
  destruct (add_stabilization first_place no_clash 0 0 0 50 base first_cand 50 f1) as (f3, o) eqn:E2.
  exists f3. split; auto.
  assert (X : o = Found [1] /\ sets f3 = [[0]]).
  { vm_compute in E. injection E as <- <-. vm_compute in E2. injection E2 as <- <-. auto. }
  destruct X as (-> & X). split; auto. split; auto. intros I HI. split; [apply HP; auto|]. split; [apply HP; auto|].
  apply (C44_found_stabilises first_place no_clash 0 0 0 50 ex_insts [] empty_family f1 base first_cand 50 f1 f3); auto.
  - discriminate.
  - apply HP.
  - apply first_cand_in.
  - apply HP. auto.
Qed.

(** *** What goes wrong beside it *)

(** try_order_synthesis adds [info.livelock_actions] as a conflict although
    nothing has filled it in: one failed attempt makes the family of conflicts
    reject every set of actions, including a solution. *)
Theorem C44_order_poisons_conflicts_refuted :
  exists f1 base f3,
    start first_place no_clash 50 empty_family ex_insts [] = (f1, Good base) /\
    try_order first_place no_clash 0 50 base 50 f1 base [] = (f3, NotFound) /\
    (forall t, conflict_ck f3 t = true) /\
    (forall I, In I ex_insts -> stabilises I [1] /\ In 1 (candidates0 I)).
Proof.
  destruct C44_example as (_ & _ & _ & _ & _ & _ & HS).
  destruct (start first_place no_clash 50 empty_family ex_insts []) as (f1, [base| |]) eqn:E;
    try (vm_compute in E; discriminate).
  exists f1, base.
  destruct (try_order first_place no_clash 0 50 base 50 f1 base []) as (f3, o) eqn:E2.
  exists f3. split; auto.
  assert (X : o = NotFound /\ sets f3 = [[]]).
  { vm_compute in E. injection E as <- <-. vm_compute in E2. injection E2 as <- <-. auto. }
  destruct X as (-> & X). split; auto. split.
  - intros t. unfold conflict_ck. rewrite X. auto.
  - intros I HI. split; [apply HS; auto|]. destruct HI as [<-|[<-|[]]]; cbn; auto.
Qed.
Print Assumptions C44_order_poisons_conflicts_refuted.

(** It also reads the first candidate of an instance that has none left, while
    another instance still has some. *)
Definition ex_done : list inst :=
  [mk4 (fun _ => true) (into_L [] []) [0; 1] false; mk4 L_or_Y (into_L [0; 1] []) [0; 1] false].
Theorem C44_order_reads_no_candidate_refuted :
  exists f1 base f3,
    start first_place no_clash 50 empty_family ex_done [] = (f1, Good base) /\
    order_pick base None = None /\ existsb (fun p => negb (is_empty (p_cands p))) base = true /\
    try_order first_place no_clash 0 50 base 50 f1 base [] = (f3, Halted) /\
    snd (add_stabilization first_place no_clash 0 0 0 50 base first_cand 50 f1) = Found [0].
Proof.
  eexists. eexists. eexists. split; [vm_compute; reflexivity|]. repeat split; vm_compute; reflexivity.
Qed.
Print Assumptions C44_order_reads_no_candidate_refuted.

(** Actions that are forced together are not tested for coexistence: a returned
    solution can contain two actions that do not coexist. *)
Definition ex_forced : list inst :=
  [mk4 only_L (fun a s t => match a, s, t with 0, X, L | 1, Y, L | 2, Z, L => true | _, _, _ => false end)
     [0; 1; 2] false].
Definition clash01 (a b : nat) : bool := match a, b with 0, 1 | 1, 0 => true | _, _ => false end.
Theorem C44_forced_actions_clash_refuted :
  exists f1 base f3 acts,
    start first_place clash01 50 empty_family ex_forced [] = (f1, Good base) /\
    add_stabilization first_place clash01 0 0 0 50 base first_cand 50 f1 = (f3, Found acts) /\
    In 0 acts /\ In 1 acts /\ clash01 0 1 = true.
Proof.
  eexists. eexists. eexists. eexists. split; [vm_compute; reflexivity|].
  split; [vm_compute; reflexivity|]. simpl. auto.
Qed.
Print Assumptions C44_forced_actions_clash_refuted.

(** ** C63: the actions blamed for a livelock.  [scc] is a set of states, one of
    them illegitimate, in which every state has a predecessor in the set.  The
    blamed actions are actions of the protocol, and every protocol that contains
    them has a cycle inside the set from which an illegitimate state of the set is
    reached. *)
Theorem C63_blamed_actions_livelock :
  forall (S : Type) (dec : forall x y : S, {x = y} + {x <> y}) univ choose axn fuel A xn scc inv blamed,
    (forall s, In s univ) ->
    (forall p : S -> bool, (exists s, p s = true) -> p (choose p) = true) ->
    (forall x y, xn x y = true <-> exists a, In a A /\ axn a x y = true) ->
    (exists s, scc s = true /\ inv s = false) ->
    (forall s, scc s = true -> exists t, scc t = true /\ xn t s = true) ->
    find_livelock_actions S dec univ choose axn fuel A xn scc inv = Good blamed ->
    incl blamed A /\
    forall B, incl blamed B ->
      let R x y := scc x = true /\ scc y = true /\ exists a, In a B /\ axn a x y = true in
      exists c s, scc c = true /\ on_cycle S R c /\ reaches S R c s /\ scc s = true /\ inv s = false.
Proof.
  intros S dec univ choose axn fuel A xn scc inv blamed Hall Hch Hxn (s0 & Hs0 & Hi0) Hpred E.
  destruct (blame_spec S dec univ Hall choose Hch axn fuel A xn scc inv blamed Hxn (ex_intro _ s0 (conj Hs0 Hi0)) E)
    as (H1 & H2).
  split; auto. intros B HB R.
  assert (HM : forall x y, scc x = true -> scc y = true -> amoves S axn blamed x y -> R x y).
  { intros x y Hx Hy (a & Ha & Hax). split; auto. split; auto. exists a. auto. }
  destruct H2 as [(s & Hs & Hi & n & Hn)|H2].
  - exists s, s. split; auto. split; [|split; [apply ReachProofs.reaches_refl|auto]].
    exists n. revert Hn. apply ReachProofs.steps_mono. intros a b (X1 & X2 & X3). auto.
  - set (Rb := fun x y => scc x && scc y && existsb (fun a => axn a x y) B).
    assert (HR : forall x y, Rb x y = true <-> R x y).
    { intros x y. unfold Rb, R. rewrite !andb_true_iff, existsb_exists. tauto. }
    destruct (ReachProofs.back_cycle S dec univ Hall Rb scc) with (s := s0) as (c & C1 & C2 & C3); auto.
    { intros s Hs. destruct (Hpred s Hs) as (t & Ht & Hts). exists t. split; auto. apply HR. apply HM; auto. }
    exists c, s0. split; auto. split; [|split; auto].
    + destruct C2 as (n & Hn). exists n. revert Hn. apply ReachProofs.steps_mono. intros a b X. apply HR. auto.
    + destruct C3 as (n & Hn). exists n. revert Hn. apply ReachProofs.steps_mono. intros a b X. apply HR. auto.
Qed.
Print Assumptions C63_blamed_actions_livelock.

(** The walk for a cycle always ends and none of its Claims fails, when every
    state of the set has a successor in it. *)
Theorem C63_blame_ends :
  forall (S : Type) (dec : forall x y : S, {x = y} + {x <> y}) univ choose axn A xn scc inv,
    (forall s, In s univ) ->
    (forall p : S -> bool, (exists s, p s = true) -> p (choose p) = true) ->
    (exists s, scc s = true /\ inv s = false) ->
    (forall s, scc s = true -> exists t, scc t = true /\ xn s t = true) ->
    exists blamed, find_livelock_actions S dec univ choose axn (2 + length univ) A xn scc inv = Good blamed.
Proof. intros S dec univ choose axn A xn scc inv Hall Hch. apply blame_ends; auto. Qed.
Print Assumptions C63_blame_ends.

(** A cycle Z, X with a state Y reachable from it in the set. *)
Example C63_example :
  let ax (a : nat) (s t : st4) := match a, s, t with 0, Z, X | 1, X, Z | 2, X, Y | 3, Y, Z | 4, Y, L => true
                                  | _, _, _ => false end in
  let xn := xn_of (mk4 only_L ax [] false) [0; 1; 2; 3; 4] in
  let scc s := match s with L => false | _ => true end in
  let inv s := match s with L | Z | X => true | _ => false end in
  (forall s, scc s = true -> exists t, scc t = true /\ xn t s = true) /\
  (forall s, scc s = true -> exists t, scc t = true /\ xn s t = true) /\
  find_livelock_actions st4 st4_dec st4_all (choose_st (mk4 only_L ax [] false)) ax 6 [0; 1; 2; 3; 4] xn scc inv
    = Good [0; 1; 2; 3].
Proof.
  cbv zeta. split; [|split; [|vm_compute; reflexivity]].
  - intros [] H; try discriminate; [exists X|exists Z|exists X]; split; vm_compute; reflexivity.
  - intros [] H; try discriminate; [exists X|exists Z|exists Z]; split; vm_compute; reflexivity.
Qed.

(** ** C62, three instances: deleting an action as useless everywhere forgets to
    ask an instance that was skipped in the pass.  Here the very first revision
    fails ("No actions apply!") although a solution exists. *)
Definition ex_three : list inst :=
  [mk4 only_L (into_L [1] [4; 5]) [0; 1; 2; 3; 4; 5] false;
   mk4 L_or_Y (into_L [2; 3] []) [0; 1; 2; 3; 4; 5] false;
   mk4 L_or_Y (into_L [4] []) [0; 1; 2; 3; 4; 5] false].

Lemma check_stabilises : forall I A, proper I -> plain I ->
  (match stabilization_ck _ (dec I) (univ I) (fuel_of I) (sysm I) (sopt I) [] (xn_of I A) (xn_of I A) with
   | Some (Accepted _ _ _ _) => true | _ => false end) = true -> stabilises I A.
Proof.
  intros I A H1 H2 H3. apply (stab_accepted I H1 H2 A []).
  destruct (stabilization_ck _ _ _ _ _ _ _ _ _) as [[| | | | | | | | | |H n m]|]; try discriminate. eauto.
Qed.

Theorem C62_three_instances_refuted :
  exists f1,
    start first_place no_clash 50 empty_family ex_three [0] = (f1, Bad) /\
    (forall I, In I ex_three -> proper I /\ NoDup (candidates0 I) /\ plain I) /\
    solution ex_three [0] (sets empty_family) no_clash [0; 1; 2; 4].
Proof.
  assert (HP : forall I, In I ex_three -> proper I /\ NoDup (candidates0 I) /\ plain I).
  { intros I [<-|[<-|[<-|[]]]]; (split; [apply mk4_proper|split; [|apply mk4_plain]]);
      cbn; repeat constructor; simpl; intuition discriminate. }
  eexists. split; [vm_compute; reflexivity|]. split; auto. split.
  - intros x [<-|[]]. simpl. auto.
  - intros I HI a Ha. right. destruct HI as [<-|[<-|[<-|[]]]]; cbn in *; intuition.
  - intros (b & [] & _).
  - auto.
  - intros I HI. destruct (HP I HI) as (H1 & _ & H2). apply check_stabilises; auto.
    destruct HI as [<-|[<-|[<-|[]]]]; vm_compute; reflexivity.
Qed.
Print Assumptions C62_three_instances_refuted.
