(** C100: suggested solutions (-x-try, -x-try-subset with -test, and as starting
    points of a search). *)
From Coq Require Import List Arith Bool Lia Permutation.
From Verif Require Import FinLib ReachModel ReachSpec ReachProofs StabModel StabProofs StabProofs2 StabProofs3 StabProofs4 RankModel RankSpec RankProofs
  ConflictModel ConflictSpec ConflictProofs SearchModel SearchSpec SearchEx SearchProofs SearchProofs2 SearchProofs3 SearchProofs4 SearchProps
  GuessModel GuessSpec GuessProofs GuessProofs2.
Import ListNotations.

(** ** A suggestion that is accepted is, as a set, what the search returns: it
    contains the given actions and passes the stabilization check of every
    instance.  For every order in which it is tried, conflict family, limits and
    choice of actions. *)
Theorem C100_accepted :
  forall place clash max_depth max_height max_conflict_sz rounds insts given f0 f1 base pick fuel f2 f3 guess acts,
    insts <> [] ->
    (forall I, In I insts -> proper I /\ NoDup (candidates0 I)) ->
    (forall t nd a, pick t nd = Some a -> exists p, In p (parts nd) /\ In a (p_cands p)) ->
    start place clash rounds f0 insts given = (f1, Good base) ->
    trial place clash max_depth max_height max_conflict_sz rounds base pick fuel f2 guess false = (f3, Found acts) ->
    (forall a, In a acts <-> In a guess) /\ incl given guess /\
    (forall I, In I insts -> passes_check I guess) /\
    (forall I, In I insts -> plain I -> stabilises I guess).
Proof.
  intros place clash md mh mc rounds insts given f0 f1 base pick fuel f2 f3 guess acts Hne Hp Hpick Hs Hf.
  assert (HP : forall I, In I insts -> proper I) by (intros; apply Hp; auto).
  apply start_good in Hs; auto; [|intros; apply Hp; auto].
  apply (level_good_weaken _ _ (fun a => usable insts given f0 a \/ In a guess)) in Hs; [|intros x Hx; left; exact Hx].
  apply (trial_found place clash md mh mc rounds insts HP (fun a => usable insts given f0 a \/ In a guess) given Hne base pick Hpick) in Hf; auto.
  destruct Hf as (Hv & H1 & H2). specialize (H2 eq_refl).
  assert (Hsame : forall a, In a acts <-> In a guess) by (split; auto).
  assert (Hg : incl given guess) by (destruct Hv as (H & _); eapply incl_tran; eauto).
  split; [auto|]. split; [auto|]. split.
  - intros I HI. pose proof (verified_passes _ _ _ _ I Hv HI) as X. unfold passes_check in *.
    destruct X as (A & v & n & m & X1 & X2 & X3). exists A, v, n, m. split; [auto|]. split; [|auto].
    intros x. rewrite (X2 x). apply Hsame.
  - intros I HI Hl. apply (stabilises_same I acts); auto. eapply verified_stabilises; eauto.
Qed.
Print Assumptions C100_accepted.

(** ** Of a suggestion to take a subset of, only usable candidates are taken, and
    the part that is taken passes. *)
Theorem C100_subset :
  forall place clash max_depth max_height max_conflict_sz rounds insts given f0 f1 base pick fuel f2 f3 guess acts,
    insts <> [] ->
    (forall I, In I insts -> proper I /\ NoDup (candidates0 I)) ->
    (forall t nd a, pick t nd = Some a -> exists p, In p (parts nd) /\ In a (p_cands p)) ->
    start place clash rounds f0 insts given = (f1, Good base) ->
    trial place clash max_depth max_height max_conflict_sz rounds base pick fuel f2 guess true = (f3, Found acts) ->
    incl acts guess /\ incl given acts /\ (forall a, In a acts -> usable insts given f0 a) /\
    (forall I, In I insts -> passes_check I acts) /\
    (forall I, In I insts -> plain I -> stabilises I acts).
Proof.
  intros place clash md mh mc rounds insts given f0 f1 base pick fuel f2 f3 guess acts Hne Hp Hpick Hs Hf.
  assert (HP : forall I, In I insts -> proper I) by (intros; apply Hp; auto).
  apply start_good in Hs; auto; [|intros; apply Hp; auto].
  apply (trial_found place clash md mh mc rounds insts HP (usable insts given f0) given Hne base pick Hpick) in Hf; auto; [|discriminate].
  destruct Hf as (Hv & H1 & _). pose proof Hv as (H2 & H3 & _).
  split; auto. split; auto. split; [exact H3|]. split.
  - intros I HI. eapply verified_passes; eauto.
  - intros I HI Hl. eapply verified_stabilises; eauto.
Qed.
Print Assumptions C100_subset.

(** ** A search that starts from a suggestion returns a protocol that contains it. *)
Theorem C100_from_guess :
  forall place clash max_depth max_height max_conflict_sz rounds insts given f0 f1 base pick fuel f2 f3 guess acts,
    insts <> [] ->
    (forall I, In I insts -> proper I /\ NoDup (candidates0 I)) ->
    (forall t nd a, pick t nd = Some a -> exists p, In p (parts nd) /\ In a (p_cands p)) ->
    start place clash rounds f0 insts given = (f1, Good base) ->
    from_guess place clash max_depth max_height max_conflict_sz rounds base pick fuel f2 guess = (f3, Found acts) ->
    incl guess acts /\ incl given acts /\ (forall a, In a acts -> usable insts given f0 a \/ In a guess) /\
    (forall I, In I insts -> passes_check I acts) /\
    (forall I, In I insts -> plain I -> stabilises I acts).
Proof.
  intros place clash md mh mc rounds insts given f0 f1 base pick fuel f2 f3 guess acts Hne Hp Hpick Hs Hf.
  assert (HP : forall I, In I insts -> proper I) by (intros; apply Hp; auto).
  apply start_good in Hs; auto; [|intros; apply Hp; auto].
  apply (level_good_weaken _ _ (fun a => usable insts given f0 a \/ In a guess)) in Hs; [|intros x Hx; left; exact Hx].
  apply (from_guess_found place clash md mh mc rounds insts HP (fun a => usable insts given f0 a \/ In a guess) given Hne base pick Hpick) in Hf; auto.
  pose proof Hf as (H2 & H3 & _).
  split; [intros x Hx; apply H2; apply in_or_app; auto|]. split; [intros x Hx; apply H2; apply in_or_app; auto|].
  split; [exact H3|]. split.
  - intros I HI. eapply verified_passes; eauto.
  - intros I HI Hl. eapply verified_stabilises; eauto.
Qed.
Print Assumptions C100_from_guess.

(** ** The answer of -test, for every number of threads and every order of their
    steps: when it ends without being interrupted, it says yes exactly if there
    is a suggestion and every suggestion was tested and accepted; it returns the
    actions of the trial that ended first. *)
Theorem C100_tested :
  forall npcs nguesses es m,
    0 < npcs -> happens nguesses (team0 npcs) es = Some m ->
    (forall t, In t (m_threads m) -> t_out t = true) -> ~ interrupted es ->
    (s_found (m_shared m) = true <->
     0 < nguesses /\ forall g, g < nguesses -> exists acts, tested npcs es g (Some acts)) /\
    (s_found (m_shared m) = true -> first_result es = Some (Some (s_actions (m_shared m)))).
Proof.
  intros npcs n es m Hp Hh Ho Hi. apply happens_inv in Hh. pose proof Hh as HV.
  destruct Hh as [H1 H2 H3 H4 H5 H6 H7 H8 H9 H10]. split; [|auto]. split.
  - intros Hf. destruct (s_done (m_shared m)) eqn:Ed; [destruct (H8 Hi eq_refl); congruence|].
    split; [|apply (all_tested npcs n es m); auto].
    specialize (H9 Hf). clear - H9 HV.
    assert (X : exists pc r, In r (results pc es)).
    { clear HV. induction es as [|e es IH]; [discriminate|]. destruct e as [p|p y|]; cbn in *.
      - auto.
      - exists p, y. rewrite Nat.eqb_refl. left. auto.
      - auto. }
    destruct X as (pc & r & X). destruct (result_of_guess npcs n es m pc r HV X) as (g & G & _). lia.
  - intros (Hn & Ha). destruct (s_found (m_shared m)) eqn:Ef; auto. exfalso.
    destruct (s_done (m_shared m)) eqn:Ed.
    + destruct (H8 Hi eq_refl) as (_ & pc & X). destruct (result_of_guess npcs n es m pc None HV X) as (g & G & T).
      destruct (Ha g G) as (acts & A). unfold tested in *. congruence.
    + destruct (Ha 0 Hn) as (acts & A). unfold tested in A. rewrite (H10 eq_refl eq_refl) in A.
      destruct (0 / npcs); discriminate.
Qed.
Print Assumptions C100_tested.

(** Together: if the results of the trials are those of [trial] -- from whatever
    conflicts the thread has learned by then -- a yes means that every suggestion
    [g], [exact g] or a part of it, stabilises. *)
Theorem C100_yes :
  forall place clash max_depth max_height max_conflict_sz rounds insts given f0 f1 base pick
         (guesses : list (list nat)) (subset : nat -> bool) npcs es m,
    insts <> [] ->
    (forall I, In I insts -> proper I /\ plain I /\ NoDup (candidates0 I)) ->
    (forall t nd a, pick t nd = Some a -> exists p, In p (parts nd) /\ In a (p_cands p)) ->
    start place clash rounds f0 insts given = (f1, Good base) ->
    0 < npcs -> happens (length guesses) (team0 npcs) es = Some m ->
    (forall t, In t (m_threads m) -> t_out t = true) -> ~ interrupted es ->
    (forall g acts, tested npcs es g (Some acts) ->
      exists fuel f2 f3 guess, Permutation guess (nth g guesses []) /\
        trial place clash max_depth max_height max_conflict_sz rounds base pick fuel f2 guess (subset g) = (f3, Found acts)) ->
    s_found (m_shared m) = true ->
    (forall g, g < length guesses -> exists acts,
      incl given acts /\ incl acts (nth g guesses []) /\
      (subset g = false -> incl (nth g guesses []) acts) /\
      forall I, In I insts -> stabilises I acts) /\
    incl given (s_actions (m_shared m)) /\
    forall I, In I insts -> stabilises I (s_actions (m_shared m)).
Proof.
  intros place clash md mh mc rounds insts given f0 f1 base pick guesses subset npcs es m
    Hne Hp Hpick Hs Hn Hh Ho Hi Ht Hf.
  assert (Hp' : forall I, In I insts -> proper I /\ NoDup (candidates0 I)) by (intros I HI; split; apply Hp; auto).
  assert (K : forall g acts, tested npcs es g (Some acts) ->
    incl given acts /\ incl acts (nth g guesses []) /\ (subset g = false -> incl (nth g guesses []) acts) /\
    forall I, In I insts -> stabilises I acts).
  { intros g acts T. destruct (Ht g acts T) as (fuel & f2 & f3 & guess & P & E).
    assert (HG : forall x, In x guess <-> In x (nth g guesses [])).
    { intros x. split; apply Permutation_in; [auto|apply Permutation_sym; auto]. }
    destruct (subset g).
    - destruct (C100_subset place clash md mh mc rounds insts given f0 f1 base pick fuel f2 f3 guess acts Hne Hp' Hpick Hs E)
        as (A1 & A2 & _ & _ & A3).
      split; [auto|]. split; [intros x Hx; apply HG; auto|]. split; [discriminate|].
      intros I HI. apply A3; auto. apply Hp. auto.
    - destruct (C100_accepted place clash md mh mc rounds insts given f0 f1 base pick fuel f2 f3 guess acts Hne Hp' Hpick Hs E)
        as (A1 & A2 & _ & A3).
      split; [intros x Hx; apply A1; auto|]. split; [intros x Hx; apply HG, A1; auto|].
      split; [intros _ x Hx; apply A1, HG; auto|].
      intros I HI. apply (stabilises_same I guess); [intros a; symmetry; apply A1|]. apply A3; auto. apply Hp. auto. }
  destruct (C100_tested npcs (length guesses) es m Hn Hh Ho Hi) as (X & Y).
  destruct (proj1 X Hf) as (_ & Z). split.
  - intros g Hg. destruct (Z g Hg) as (acts & T). exists acts. apply (K g acts T).
  - specialize (Y Hf). apply happens_inv in Hh.
    assert (W : exists pc, In (Some (s_actions (m_shared m))) (results pc es)).
    { clear - Y. induction es as [|e es IH]; [discriminate|]. destruct e as [p|p y|]; cbn in *.
      - auto.
      - injection Y as ->. exists p. rewrite Nat.eqb_refl. left. auto.
      - auto. }
    destruct W as (pc & W). destruct (result_of_guess _ _ _ _ _ _ Hh W) as (g & _ & T).
    destruct (K g _ T) as (K1 & _ & _ & K2). auto.
Qed.
Print Assumptions C100_yes.

(** The suggestion {1} for the network of C44_example: accepted by one of two
    threads while the other tests a suggestion to take a part of. *)
Example C100_example :
  exists f1 base f2 f3 m,
    start first_place no_clash 50 empty_family ex_insts [] = (f1, Good base) /\
    trial first_place no_clash 0 0 0 50 base first_cand 50 f1 [1] false = (f2, Found [1]) /\
    trial first_place no_clash 0 0 0 50 base first_cand 50 f1 [1; 2] true = (f3, Found [1]) /\
    happens 3 (team0 2) [Look 1; Look 0; End 1 (Some [1]); Look 1; End 0 (Some [1]); Look 0; End 0 (Some [1]); Look 0] = Some m /\
    s_found (m_shared m) = true /\ s_actions (m_shared m) = [1] /\ (forall t, In t (m_threads m) -> t_out t = true) /\
    forall I, In I ex_insts -> stabilises I [1].
Proof.
  assert (HP : forall I, In I ex_insts -> (proper I /\ NoDup (candidates0 I)) /\ plain I).
  { intros I [<-|[<-|[]]]; (split; [split; [apply mk4_proper|]|apply mk4_plain]);
      cbn; repeat constructor; simpl; intuition discriminate. }
  destruct (start first_place no_clash 50 empty_family ex_insts []) as (f1, [base| |]) eqn:E;
    try (vm_compute in E; discriminate).
  destruct (trial first_place no_clash 0 0 0 50 base first_cand 50 f1 [1] false) as (f2, o) eqn:E2.
  destruct (trial first_place no_clash 0 0 0 50 base first_cand 50 f1 [1; 2] true) as (f3, o3) eqn:E3.
  assert (X : o = Found [1] /\ o3 = Found [1]).
  { vm_compute in E. injection E as <- <-. vm_compute in E2. injection E2 as <- <-.
    vm_compute in E3. injection E3 as <- <-. auto. }
  destruct X as (-> & ->).
  destruct (happens 3 (team0 2) [Look 1; Look 0; End 1 (Some [1]); Look 1; End 0 (Some [1]); Look 0; End 0 (Some [1]); Look 0])
    as [m|] eqn:Em; [|discriminate].
  exists f1, base, f2, f3, m. vm_compute in Em. injection Em as <-.
  split; [reflexivity|]. split; [exact E2|]. split; [exact E3|]. split; [reflexivity|]. split; [reflexivity|].
  split; [reflexivity|]. split; [intros t [<-|[<-|[]]]; reflexivity|].
  intros I HI.
  destruct (C100_accepted first_place no_clash 0 0 0 50 ex_insts [] empty_family f1 base first_cand 50 f1 f2 [1] [1])
    as (_ & _ & _ & H); auto.
  - discriminate.
  - intros J HJ. apply HP. auto.
  - apply first_cand_in.
  - apply H; auto. apply HP. auto.
Qed.

(** ** -x-try-subset does not ask whether some part of the suggestion is a
    solution: the actions are picked one by one as long as they are candidates,
    and the first pick that fails ends the trial.  Here {1} is a solution, but the
    suggestion {0, 1} is refused in both orders. *)
Theorem C100_part_refuted :
  exists f1 base f2 f3,
    start first_place no_clash 50 empty_family ex_insts [] = (f1, Good base) /\
    trial first_place no_clash 0 0 0 50 base first_cand 50 f1 [0; 1] true = (f2, NotFound) /\
    trial first_place no_clash 0 0 0 50 base first_cand 50 f1 [1; 0] true = (f3, NotFound) /\
    solution ex_insts [] (sets empty_family) no_clash [1].
Proof.
  destruct C100_example as (f1 & base & _ & _ & _ & E & _ & _ & _ & _ & _ & _ & HS).
  exists f1, base.
  destruct (trial first_place no_clash 0 0 0 50 base first_cand 50 f1 [0; 1] true) as (f2, o) eqn:E2.
  destruct (trial first_place no_clash 0 0 0 50 base first_cand 50 f1 [1; 0] true) as (f3, o3) eqn:E3.
  exists f2, f3. split; [exact E|].
  assert (X : o = NotFound /\ o3 = NotFound).
  { vm_compute in E. injection E as <- <-. vm_compute in E2. injection E2 as <- <-.
    vm_compute in E3. injection E3 as <- <-. auto. }
  destruct X as (-> & ->).
  split; [reflexivity|]. split; [reflexivity|]. split.
  - intros x [].
  - intros I HI a [<-|[]]. right. destruct HI as [<-|[<-|[]]]; cbn; auto.
  - intros (b & [] & _).
  - reflexivity.
  - exact HS.
Qed.
Print Assumptions C100_part_refuted.

(** What is taken of such a suggestion depends on the order, which is random with
    a random pick. *)
Theorem C100_order_refuted :
  exists f1 base f2 f3,
    start first_place no_clash 50 empty_family ex_insts [] = (f1, Good base) /\
    trial first_place no_clash 0 0 0 50 base first_cand 50 f1 [1; 2] true = (f2, Found [1]) /\
    trial first_place no_clash 0 0 0 50 base first_cand 50 f1 [2; 1] true = (f3, Found [2; 1]).
Proof.
  destruct C100_example as (f1 & base & _ & f2 & _ & E & _ & E2 & _).
  exists f1, base, f2.
  destruct (trial first_place no_clash 0 0 0 50 base first_cand 50 f1 [2; 1] true) as (f3, o3) eqn:E3.
  exists f3. split; [exact E|]. split; [exact E2|].
  assert (o3 = Found [2; 1]) as ->; [|reflexivity].
  vm_compute in E. injection E as <- <-. vm_compute in E3. injection E3 as <- <-. auto.
Qed.
Print Assumptions C100_order_refuted.

(** ** An interrupted test says yes although a suggestion has not been tested. *)
Theorem C100_interrupted_refuted :
  exists es m,
    happens 2 (team0 1) es = Some m /\ (forall t, In t (m_threads m) -> t_out t = true) /\
    interrupted es /\ s_found (m_shared m) = true /\ forall r, ~ tested 1 es 1 r.
Proof.
  exists [Look 0; End 0 (Some [1]); Signal; Look 0]. eexists. split; [vm_compute; reflexivity|].
  split; [intros t [<-|[]]; reflexivity|]. split; [right; right; left; reflexivity|]. split; [reflexivity|].
  intros r H. vm_compute in H. discriminate.
Qed.
Print Assumptions C100_interrupted_refuted.
