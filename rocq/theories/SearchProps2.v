(** C62: the search for one or two instances overlooks no solution. *)
From Coq Require Import List Arith Bool Lia.
From Verif Require Import FinLib ReachModel ReachSpec StabModel RankModel ConflictModel ConflictSpec ConflictProofs
  SearchModel SearchSpec SearchEx SearchProofs SearchProofs2 SearchProofs3 SearchProofs4 SearchProofs8 SearchProofs9 SearchProps.
Import ListNotations.

Lemma start_pass : forall place clash rounds insts given f B f1 r,
  built place f -> insts <> [] -> length insts <= 2 ->
  (forall I, In I insts -> searchable I given (usable insts given f)) ->
  solution insts given (sets f) clash B ->
  start place clash rounds f insts given = (f1, r) ->
  r <> Bad /\ forall base, r = Good base ->
    safe place clash insts given (sets f) f1 /\ level_good insts (usable insts given f) given base /\
    keeps clash insts given (sets f) base [] /\ (forall p, In p base -> checked' p) /\
    map p_no_partial base = map light insts.
Proof.
  intros place clash rounds insts given f B f1 r Hf Hne Htwo Hse HB E.
  assert (Hsafe : safe place clash insts given (sets f) f).
  { split; auto. intros A HA. apply (so_conflicts _ _ _ _ _ HA). }
  assert (Hproper : forall I, In I insts -> proper I) by (intros I HI; apply (Hse I HI)).
  assert (Hlev : level_ok insts (usable insts given f) (fresh insts) []).
  { split.
    - unfold fresh. rewrite map_map. cbn [projT1]. apply map_id.
    - unfold fresh. apply Forall_forall. intros p Hi. apply in_map_iff in Hi. destruct Hi as (I & <- & Hi).
      apply init_shape. apply (Hse I Hi).
    - intros p Hi x. unfold fresh in Hi. apply in_map_iff in Hi. destruct Hi as (I & <- & Hi). cbn. tauto.
    - intros x []. }
  assert (Hadd : forall x, In x (fold_right sadd [] given) -> usable insts given f x).
  { intros x Hx. rewrite fold_sadd_in in Hx. left. auto. }
  assert (Hcand : forall p, In p (fresh insts) -> forall x, In x (p_cands p) ->
    usable insts given f x \/ In x (fold_right sadd [] (impossible f))).
  { intros p Hi x Hx. unfold fresh in Hi. apply in_map_iff in Hi. destruct Hi as (I & <- & Hi). cbn in Hx.
    rewrite fold_sadd_in. destruct (in_dec Nat.eq_dec x (impossible f)); [right; auto|left; right; eauto]. }
  unfold start in E.
  assert (Hsem : forall S, solution insts given (sets f) clash S ->
    r <> Bad /\ forall ps', r = Good ps' -> exists S', solution insts given (sets f) clash S' /\ incl S' S /\
    forall p, In p ps' -> consistent' given S' p [] [] /\ forall x, In x (p_cands p) -> In x S -> In x S').
  { intros S HS.
    apply (revise_sem place clash insts given (sets f) (usable insts given f)) with
      (B := B) (rounds := rounds) (f := f) (ps := fresh insts) (U := [])
      (adds := fold_right sadd [] given) (dels := fold_right sadd [] (impossible f)) (f' := f1); auto;
      try (intros I HI; apply (Hse I HI)).
    intros p Hp. apply (fresh_consistent place clash insts); auto. }
  destruct (Hsem B HB) as (Hbad & _). split; auto. intros base ->.
  destruct (revise_any place clash insts given (sets f) (usable insts given f) Htwo Hproper
    (fun I HI => se_plain _ _ _ (Hse I HI)) (fun I HI => se_harmless _ _ _ (Hse I HI)) B HB rounds f (fresh insts) []
    _ _ f1 _ Hsafe Hlev Hadd Hcand E) as (Hs1 & Hs2).
  destruct (Hs2 base eq_refl) as (Hnp & Hck).
  split; auto. split.
  { apply (start_good place clash rounds f insts given f1 base); auto. intros I HI. apply (Hse I HI). }
  split; [|split; auto].
  - intros S HS _. destruct (Hsem S HS) as (_ & X). destruct (X base eq_refl) as (S' & X1 & X2 & X3).
    exists S'. split; auto. split; auto. split; [intros p Hp; apply (X3 p Hp)|]. intros x (p & Hp & Hx). apply (X3 p Hp); auto.
  - rewrite Hnp. unfold fresh. rewrite map_map. apply map_ext. intros I. reflexivity.
Qed.

(** ** C62: if the search gives up, there is no protocol that keeps the given
    actions, adds candidates of every instance, contains no declared conflict,
    consists of coexisting actions and stabilises every instance.  One or two
    instances, no limit on depth and height, any limit on the size of learned
    conflicts, any way of picking candidates (as long as one is picked when there
    is one) and any order of conflicts.  For three instances the statement is
    false: C62_three_instances_refuted. *)
Theorem C62_not_found_means_none :
  forall place clash max_conflict_sz rounds insts given f f1 base pick fuel f2,
    built place f -> insts <> [] -> length insts <= 2 ->
    (forall I, In I insts -> searchable I given (usable insts given f)) ->
    (forall t nd a, pick t nd = Some a -> exists p, In p (parts nd) /\ In a (p_cands p)) ->
    (forall t nd, (exists p, In p (parts nd) /\ p_cands p <> []) -> pick t nd <> None) ->
    start place clash rounds f insts given = (f1, Good base) ->
    add_stabilization place clash 0 0 max_conflict_sz rounds base pick fuel f1 = (f2, NotFound) ->
    ~ exists A, solution insts given (sets f) clash A.
Proof.
  intros place clash mc rounds insts given f f1 base pick fuel f2 Hf Hne Htwo Hse Hpick Hpicks Es Ea (B & HB).
  destruct (start_pass place clash rounds insts given f B f1 _ Hf Hne Htwo Hse HB Es) as (_ & H).
  destruct (H base eq_refl) as (H1 & H2 & H3 & H4 & H5).
  apply (add_stabilization_sem place clash mc rounds insts given (sets f) (usable insts given f)) with
    (B := B) (base := base) (pick := pick) (fuel := fuel) (f := f1) (f' := f2) (o := NotFound) in Ea; auto;
    try (intros I HI; apply (Hse I HI)).
  destruct Ea as (_ & Ea). congruence.
Qed.
Print Assumptions C62_not_found_means_none.

(** Neither does a start that fails ("No actions apply!"). *)
Theorem C62_failed_start_means_none :
  forall place clash rounds insts given f f1,
    built place f -> insts <> [] -> length insts <= 2 ->
    (forall I, In I insts -> searchable I given (usable insts given f)) ->
    start place clash rounds f insts given = (f1, Bad) ->
    ~ exists A, solution insts given (sets f) clash A.
Proof.
  intros place clash rounds insts given f f1 Hf Hne Htwo Hse Es (B & HB).
  destruct (start_pass place clash rounds insts given f B f1 _ Hf Hne Htwo Hse HB Es) as (H & _). congruence.
Qed.
Print Assumptions C62_failed_start_means_none.

(** Two instances that are solvable one by one but not together: the first needs
    0 or 1 for [Z] and 2 or 3 for [X], the second then has a livelock between [Z]
    and [X].  The search picks, learns, backtracks and gives up. *)
Definition need_axn (a : nat) (s t : st4) : bool :=
  match s, t with Z, L => memb a [0; 1] | X, L => memb a [2; 3] | Y, L => memb a [4] | _, _ => false end.
Definition loop_axn (a : nat) (s t : st4) : bool :=
  match s, t with Z, X => memb a [0; 1] | X, Z => memb a [2; 3] | _, L => memb a [4] && negb (only_L s) | _, _ => false end.
Definition ex_torn : list inst := [mk4 only_L need_axn [0; 1; 2; 3; 4] false; mk4 only_L loop_axn [0; 1; 2; 3; 4] true].

Lemma mk4_searchable : forall inv ax cs lgt given usable, NoDup cs ->
  (forall a x, ax a x x = false) ->
  (lgt = true -> forall a x y, inv x = true -> ax a x y = true -> inv y = true) ->
  searchable (mk4 inv ax cs lgt) given usable.
Proof.
  intros inv ax cs lgt given us Hd Hl Ho. split.
  - apply mk4_proper.
  - apply mk4_plain.
  - exact Hd.
  - discriminate.
  - discriminate.
  - reflexivity.
  - intros x y _ H. discriminate H.
  - intros a _. right. split; cbn; auto.
  - intros E. split; [discriminate|]. intros a _. right. split; cbn; [|congruence].
    intros x y (H1 & H2) H. split; eauto.
Qed.
Lemma first_cand_picks : forall t nd, (exists p, In p (parts nd) /\ p_cands p <> []) -> first_cand t nd <> None.
Proof. intros t nd (p & Hp & Hc) E. apply Hc. apply (first_cand_some t nd E p Hp). Qed.

Example C62_example :
  exists f1 base f2,
    (forall I, In I ex_torn -> searchable I [] (usable ex_torn [] empty_family)) /\
    start first_place no_clash 50 empty_family ex_torn [] = (f1, Good base) /\
    Forall (fun p => p_cands p <> []) base /\
    add_stabilization first_place no_clash 0 0 0 50 base first_cand 50 f1 = (f2, NotFound) /\
    (forall I, In I ex_torn -> exists A, incl A (candidates0 I) /\ stabilises I A) /\
    ~ exists A, solution ex_torn [] [] no_clash A.
Proof.
  assert (HS : forall I, In I ex_torn -> searchable I [] (usable ex_torn [] empty_family)).
  { intros I [<-|[<-|[]]]; (apply mk4_searchable; [repeat constructor; simpl; intuition discriminate| |]).
    - intros a []; reflexivity.
    - discriminate.
    - intros a []; cbn; rewrite ?andb_false_r; reflexivity.
    - intros _ a [] [] Hx; try discriminate; cbn; rewrite ?andb_false_r; discriminate. }
  destruct (start first_place no_clash 50 empty_family ex_torn []) as (f1, [base| |]) eqn:E;
    try (vm_compute in E; discriminate).
  destruct (add_stabilization first_place no_clash 0 0 0 50 base first_cand 50 f1) as (f2, o) eqn:E2.
  exists f1, base, f2.
  assert (X : o = NotFound /\ forallb (fun p => negb (is_empty (p_cands p))) base = true).
  { vm_compute in E. injection E as <- <-. vm_compute in E2. injection E2 as <- <-. auto. }
  destruct X as (-> & X). split; [exact HS|]. split; [reflexivity|]. split; [|split; [exact E2|split]].
  - apply Forall_forall. intros p Hp. rewrite forallb_forall in X. specialize (X p Hp). destruct (p_cands p); discriminate.
  - intros I [<-|[<-|[]]].
    + exists [0; 2; 4]. split; [intros a; simpl; tauto|]. apply check_stabilises; [apply mk4_proper|apply mk4_plain|vm_compute; reflexivity].
    + exists [4]. split; [intros a; simpl; tauto|]. apply check_stabilises; [apply mk4_proper|apply mk4_plain|vm_compute; reflexivity].
  - apply (C62_not_found_means_none first_place no_clash 0 50 ex_torn [] empty_family f1 base first_cand 50 f2).
    + constructor.
    + discriminate.
    + exact (le_n 2).
    + exact HS.
    + apply first_cand_in.
    + apply first_cand_picks.
    + exact E.
    + exact E2.
Qed.

(** A start that fails: nothing resolves [Y]. *)
Example C62_example_start :
  let I := mk4 only_L (into_L [0; 1] []) [0; 1] false in
  searchable I [] (usable [I] [] empty_family) /\
  (exists f1, start first_place no_clash 50 empty_family [I] [] = (f1, Bad)) /\
  ~ exists A, solution [I] [] [] no_clash A.
Proof.
  intros I. assert (HS : searchable I [] (usable [I] [] empty_family)).
  { apply mk4_searchable; [repeat constructor; simpl; intuition discriminate| |discriminate]. intros a []; reflexivity. }
  destruct (start first_place no_clash 50 empty_family [I] []) as (f1, r) eqn:E.
  assert (r = Bad) as -> by (vm_compute in E; injection E as <- <-; reflexivity).
  split; [exact HS|]. split; [eauto|].
  apply (C62_failed_start_means_none first_place no_clash 50 [I] [] empty_family f1); auto.
  - constructor.
  - discriminate.
  - intros J [<-|[]]. exact HS.
Qed.

(** ** The condition on specified transitions is needed: if a legitimate state has
    two specified transitions that no given action does, check_forward deletes the
    action for the second one as soon as the first one is there
    (synthesis.cc:976-978), and the search gives up although both actions together
    are a solution. *)
Definition fork_spec (s t : st4) : bool := match s, t with L, Z | L, Y => true | _, _ => false end.
Definition fork_axn (a : nat) (s t : st4) : bool :=
  match a, s, t with 0, L, Z | 1, L, Y | 0, X, L | 1, X, L => true | _, _, _ => false end.
Definition fork_inst : inst :=
  mkInst st4 st4_dec st4_all
    (mkSys st4 (fun s => match s with X => false | _ => true end) (fun _ => true) fork_spec
       (fun a b => if st4_dec a b then true else false) false false FutureAndShadow DirectInvariant FutureShadow)
    plain_opt fork_axn (fun l => map fork_axn l)
    (fun _ _ _ => false) (fun p => match filter p st4_all with x :: _ => x | [] => L end)
    (fun _ => false) [0; 1] false false.

Theorem C62_two_specified_moves_refuted :
  exists f1 base f2,
    proper fork_inst /\ plain fork_inst /\
    (forall a, harmless fork_inst a) /\
    start first_place no_clash 50 empty_family [fork_inst] [] = (f1, Good base) /\
    add_stabilization first_place no_clash 0 0 0 50 base first_cand 50 f1 = (f2, NotFound) /\
    solution [fork_inst] [] (sets empty_family) no_clash [0; 1].
Proof.
  assert (HP : proper fork_inst) by (destruct (mk4_proper only_L fork_axn [0; 1] false) as [H1 H2 H3 H4 H5]; split; assumption).
  assert (HL : plain fork_inst) by (split; cbn; auto; discriminate).
  destruct (start first_place no_clash 50 empty_family [fork_inst] []) as (f1, [base| |]) eqn:E;
    try (vm_compute in E; discriminate).
  destruct (add_stabilization first_place no_clash 0 0 0 50 base first_cand 50 f1) as (f2, o) eqn:E2.
  assert (o = NotFound) as ->.
  { vm_compute in E. injection E as <- <-. vm_compute in E2. injection E2 as <- <-. auto. }
  exists f1, base, f2. split; [exact HP|]. split; [exact HL|]. split; [|split; [reflexivity|split; [exact E2|]]].
  - intros a. split; [|reflexivity]. intros [] _; destruct a as [|[|a]]; reflexivity.
  - split.
    + intros x [].
    + intros I [<-|[]] a Ha. right. exact Ha.
    + intros (b & [] & _).
    + reflexivity.
    + intros I [<-|[]]. apply check_stabilises; [exact HP|exact HL|vm_compute; reflexivity].
Qed.
Print Assumptions C62_two_specified_moves_refuted.
