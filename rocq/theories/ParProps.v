(** C79 and C80: the search by several threads, and the minimisation of conflicts. *)
From Coq Require Import List Arith Bool Lia Permutation Sorted.
From Verif Require Import FinLib ReachModel ReachSpec StabModel RankModel ConflictModel ConflictSpec ConflictProofs
  SearchModel SearchSpec SearchEx SearchProofs SearchProofs2 SearchProofs3 SearchProofs4 SearchProofs6 SearchProofs8 SearchProofs9
  SearchProps SearchProps2 ParModel ParSpec ParProofs ParProofs2 ParProofs3.
Import ListNotations.

(** ** C79: whatever is counted as a solution, by any of the threads and at any
    time, keeps the given actions, adds usable candidates only and passed the
    check of every instance.  What is returned is the last one counted, and
    nothing is returned only if none was.  For every number of threads, schedule,
    signal, limit, option and conflict family. *)
Theorem C79_results_are_checked :
  forall place clash max_depth max_height max_conflict_sz rounds o insts given f n g0 evs,
    insts <> [] ->
    (forall I, In I insts -> proper I /\ NoDup (candidates0 I)) ->
    begin_search place clash rounds n f insts given = Some g0 -> schedule evs ->
    let g := run place clash max_depth max_height max_conflict_sz rounds o g0 evs in
    (forall r, In r (g_reported g) ->
      incl given (r_acts r) /\ (forall a, In a (r_acts r) -> usable insts given f a) /\
      forall I, In I insts -> passes_check I (r_acts r)) /\
    (forall A, result g = Some A -> exists before r, g_reported g = before ++ [r] /\ A = r_acts r) /\
    (result g = None <-> g_reported g = []).
Proof.
  intros place clash md mh mc rounds o insts given f n g0 evs Hne Hp Hb Hs g.
  assert (HP : forall I, In I insts -> proper I) by (intros; apply Hp; auto).
  destruct (run_verified place clash md mh mc rounds o insts given (usable insts given f) Hne HP evs g0 Hs) as ([H1 H2 H3] & _).
  { unfold begin_search in Hb. destruct (start place clash rounds f insts given) as (f1 & r) eqn:Es.
    assert (Hst : forall b, r = Good b -> level_good insts (usable insts given f) given b).
    { intros b ->. apply (start_good place clash rounds f insts given f1 b); auto. intros; apply Hp; auto. }
    destruct r as [b| |]; [| |discriminate]; injection Hb as <-; (split; [split; cbn; [tauto|split; [discriminate|congruence]|discriminate]|]);
      intros i t Ht; apply nth_error_In in Ht; cbn in Ht; apply repeat_spec in Ht; subst t; split; cbn; try discriminate; auto. }
  fold g in H1, H2, H3. split; [|split].
  - intros r Hr. pose proof (H1 r Hr) as H. pose proof H as (X1 & X2 & _). split; auto. split; auto.
    intros I HI. eapply verified_passes; eauto.
  - intros A. unfold result. destruct (g_found g); [|discriminate]. intros X. injection X as <-. apply H3. auto.
  - unfold result. destruct (g_found g).
    + split; [discriminate|]. intros X. exfalso. apply (proj1 H2 eq_refl X).
    + split; auto. intros _. destruct (g_reported g); auto. assert (X : false = true) by (apply H2; discriminate). discriminate.
Qed.
Print Assumptions C79_results_are_checked.

(** ** Two solutions are never written to the same file (the file name is made
    from the number of the thread and that of its trial). *)
Theorem C79_files_are_distinct :
  forall place clash max_depth max_height max_conflict_sz rounds o insts given f n g0 evs,
    begin_search place clash rounds n f insts given = Some g0 ->
    NoDup (map (fun r => (r_pc r, r_trial r))
             (g_reported (run place clash max_depth max_height max_conflict_sz rounds o g0 evs))).
Proof.
  intros place clash md mh mc rounds o insts given f n g0 evs Hb.
  apply (run_tags place clash md mh mc rounds o evs g0). unfold begin_search in Hb.
  destruct (start place clash rounds f insts given) as (f1 & [b| |]); [| |discriminate]; injection Hb as <-;
    (split; [constructor|intros i t _ r []]).
Qed.
Print Assumptions C79_files_are_distinct.

(** ** Once the flag is set (a signal, the file kill-protocon, a thread that found
    a solution or that there is none) nothing is counted any more, and the result
    stays. *)
Theorem C79_flag_freezes_the_result :
  forall place clash max_depth max_height max_conflict_sz rounds o g evs,
    g_done g = true ->
    let g' := run place clash max_depth max_height max_conflict_sz rounds o g evs in
    g_done g' = true /\ g_reported g' = g_reported g /\ result g' = result g.
Proof.
  intros place clash md mh mc rounds o g evs Hd g'.
  destruct (run_frozen place clash md mh mc rounds o evs g Hd) as (H1 & H2 & H3 & H4). fold g' in H1, H2, H3, H4.
  split; auto. split; auto. unfold result. rewrite H3, H4. auto.
Qed.
Print Assumptions C79_flag_freezes_the_result.

(** Without -try-all at most one solution is counted, however the threads race. *)
Theorem C79_one_solution_is_enough :
  forall place clash max_depth max_height max_conflict_sz rounds o insts given f n g0 evs,
    begin_search place clash rounds n f insts given = Some g0 -> try_all o = false ->
    let g := run place clash max_depth max_height max_conflict_sz rounds o g0 evs in
    length (g_reported g) <= 1 /\ (g_reported g <> [] -> g_done g = true).
Proof.
  intros place clash md mh mc rounds o insts given f n g0 evs Hb Ht g.
  apply (run_one place clash md mh mc rounds o evs g0); auto. unfold begin_search in Hb.
  destruct (start place clash rounds f insts given) as (f1 & [b| |]); [| |discriminate]; injection Hb as <-;
    intros _; cbn; (split; [auto|congruence]).
Qed.
Print Assumptions C79_one_solution_is_enough.

(** ** If all threads have left without a signal and there is no result, then
    there is no solution.  One or two instances, no limit on depth and height; a
    limit on the number of trials only if solutions are not recorded as conflicts. *)
Theorem C79_no_result_means_none :
  forall place clash max_conflict_sz rounds o insts given f n g0 evs,
    built place f -> insts <> [] -> length insts <= 2 ->
    (forall I, In I insts -> searchable I given (usable insts given f)) ->
    begin_search place clash rounds n f insts given = Some g0 ->
    schedule evs -> eager evs -> ~ In Kill evs ->
    0 < n -> ntrials o = 0 \/ solution_as_conflict o = false ->
    let g := run place clash 0 0 max_conflict_sz rounds o g0 evs in
    over g -> result g = None ->
    ~ exists A, solution insts given (sets f) clash A.
Proof.
  intros place clash mc rounds o insts given f n g0 evs Hf Hne Htwo Hse Hb Hs He Hk Hn Ho g Hov Hr (B & HB).
  assert (Hr' : g_reported g = []).
  { apply (C79_results_are_checked place clash 0 0 mc rounds o insts given f n g0 evs); auto.
    intros I HI. split; apply (Hse I HI). }
  assert (HB' : solution insts given (sets f ++ []) clash B) by (rewrite app_nil_r; exact HB).
  destruct (search_kept place clash mc rounds n o insts given f Hf Hne Htwo Hse [] B HB' g0 evs true Hb Hs He) as (HP & HQ).
  { intros X. destruct (Hk X). }
  fold g in HP, HQ. assert (Hri : reports_in o [] g) by (intros _ r Hr0; rewrite Hr' in Hr0; exact Hr0).
  destruct (nth_error (g_threads g) 0) as [t|] eqn:Et.
  - assert (Hg : t_phase t = Gone) by (apply Hov; apply (nth_error_In _ _ Et)).
    destruct (HQ 0 t Et Hri) as [A1 A2 A3 A4 A5]. destruct Ho as [Ho|Ho].
    + destruct (A4 Hg) as [X|(X & _)]; [|congruence]. apply (pk_done _ _ _ _ _ _ _ _ _ HP Hri eq_refl X). auto.
    + destruct (A5 eq_refl Ho Hr') as (_ & [Y|[Y|[(a & Y)|Y]]]); congruence.
  - apply nth_error_None in Et. unfold g in Et. rewrite run_length, (begin_threads _ _ _ _ _ _ _ _ Hb) in Et. lia.
Qed.
Print Assumptions C79_no_result_means_none.

(** ** With -try-all and no limit on the number of trials: when all threads have
    left without a signal, every solution contains one that was counted. *)
Theorem C79_all_solutions_are_covered :
  forall place clash max_conflict_sz rounds o insts given f n g0 evs,
    built place f -> insts <> [] -> length insts <= 2 ->
    (forall I, In I insts -> searchable I given (usable insts given f)) ->
    begin_search place clash rounds n f insts given = Some g0 ->
    schedule evs -> eager evs -> ~ In Kill evs ->
    0 < n -> ntrials o = 0 -> try_all o = true ->
    let g := run place clash 0 0 max_conflict_sz rounds o g0 evs in
    over g ->
    forall A, solution insts given (sets f) clash A -> exists r, In r (g_reported g) /\ incl (r_acts r) A.
Proof.
  intros place clash mc rounds o insts given f n g0 evs Hf Hne Htwo Hse Hb Hs He Hk Hn Ho Hta g Hov B HB.
  destruct (in_dec bool_dec true (map (fun r => forallb (fun a => memb a B) (r_acts r)) (g_reported g))) as [Hi|Hi].
  { apply in_map_iff in Hi. destruct Hi as (r & E & Hr). exists r. split; auto. intros a Ha.
    rewrite forallb_forall in E. apply memb_spec. apply E. auto. }
  exfalso. set (X := map r_acts (g_reported g)).
  assert (HB' : solution insts given (sets f ++ X) clash B).
  { apply solution_more; auto. intros (b & Hx & Hb'). apply in_map_iff in Hx. destruct Hx as (r & <- & Hr). apply Hi.
    apply in_map_iff. exists r. split; auto. apply forallb_forall. intros a Ha. apply memb_spec. auto. }
  destruct (search_kept place clash mc rounds n o insts given f Hf Hne Htwo Hse X B HB' g0 evs true Hb Hs He) as (HP & HQ).
  { intros Y. destruct (Hk Y). }
  fold g in HP, HQ. assert (Hri : reports_in o X g) by (intros _ r Hr; apply in_map; exact Hr).
  destruct (nth_error (g_threads g) 0) as [t|] eqn:Et.
  - assert (Hg : t_phase t = Gone) by (apply Hov; apply (nth_error_In _ _ Et)).
    destruct (HQ 0 t Et Hri) as [A1 A2 A3 A4 A5].
    destruct (A4 Hg) as [Y|(Y & _)]; [|congruence]. destruct (pk_done _ _ _ _ _ _ _ _ _ HP Hri eq_refl Y). congruence.
  - apply nth_error_None in Et. unfold g in Et. rewrite run_length, (begin_threads _ _ _ _ _ _ _ _ Hb) in Et. lia.
Qed.
Print Assumptions C79_all_solutions_are_covered.

(** ** The conflicts that are written may be given to another run: a solution that
    they reject contains one that was counted, and only if solutions are recorded
    as conflicts.  At any time, also after a signal. *)
Theorem C79_written_conflicts_are_sound :
  forall place clash max_conflict_sz rounds o insts given f n g0 evs,
    built place f -> insts <> [] -> length insts <= 2 ->
    (forall I, In I insts -> searchable I given (usable insts given f)) ->
    begin_search place clash rounds n f insts given = Some g0 ->
    schedule evs -> eager evs ->
    let g := run place clash 0 0 max_conflict_sz rounds o g0 evs in
    forall A, solution insts given (sets f) clash A ->
      rejected (sets (conflicts_written max_conflict_sz g)) A ->
      solution_as_conflict o = true /\ exists r, In r (g_reported g) /\ incl (r_acts r) A.
Proof.
  intros place clash mc rounds o insts given f n g0 evs Hf Hne Htwo Hse Hb Hs He g B HB Hrej.
  set (X := if solution_as_conflict o then map r_acts (g_reported g) else []).
  destruct (in_dec bool_dec true (map (fun c => forallb (fun a => memb a B) c) X)) as [Hi|Hi].
  { apply in_map_iff in Hi. destruct Hi as (c & E & Hc). unfold X in Hc. destruct (solution_as_conflict o); [|destruct Hc].
    split; auto. apply in_map_iff in Hc. destruct Hc as (r & <- & Hr). exists r. split; auto. intros a Ha.
    rewrite forallb_forall in E. apply memb_spec. apply E. auto. }
  exfalso.
  assert (HB' : solution insts given (sets f ++ X) clash B).
  { apply solution_more; auto. intros (b & Hx & Hb'). apply Hi.
    apply in_map_iff. exists b. split; auto. apply forallb_forall. intros a Ha. apply memb_spec. auto. }
  destruct (search_kept place clash mc rounds n o insts given f Hf Hne Htwo Hse X B HB' g0 evs false Hb Hs He) as (HP & HQ).
  { auto. }
  fold g in HP, HQ.
  assert (Hri : reports_in o X g) by (intros E r Hr; unfold X; rewrite E; apply in_map; exact Hr).
  destruct (pk_safe _ _ _ _ _ _ _ _ _ HP Hri) as (_ & H). apply (H B HB').
  destruct Hrej as (b & Hx & Hi'). unfold conflicts_written in Hx. apply trim_sets in Hx. exists b. tauto.
Qed.
Print Assumptions C79_written_conflicts_are_sound.

(** ** If solutions are recorded as conflicts and no limit is set on the size of
    conflicts, no counted solution contains an earlier one. *)
Theorem C79_counted_solutions_are_new :
  forall place clash max_depth max_height rounds o insts given f n g0 evs,
    begin_search place clash rounds n f insts given = Some g0 -> solution_as_conflict o = true ->
    ForallOrdPairs (fun earlier later => ~ incl (r_acts earlier) (r_acts later))
      (g_reported (run place clash max_depth max_height 0 rounds o g0 evs)).
Proof.
  intros place clash md mh rounds o insts given f n g0 evs Hb Ho.
  apply (run_new place clash md mh 0 rounds o Ho eq_refl evs g0). unfold begin_search in Hb.
  destruct (start place clash rounds f insts given) as (f1 & [b| |]); [| |discriminate]; injection Hb as <-; (split; [intros r []|constructor]).
Qed.
Print Assumptions C79_counted_solutions_are_new.

(** ** Concrete cases *)

(** One instance with four minimal solutions: one of 0 and 1, one of 2 and 3, and
    4.  Two threads, of which the first moves twice as often. *)
Definition ex_four : list inst := [mk4 only_L need_axn [0; 1; 2; 3; 4] false].
Definition ex_sched (k : nat) : list event :=
  concat (repeat [Move 0 50 first_cand; Move 1 50 first_cand; Move 0 50 first_cand] k).

Lemma ex_sched_in : forall k e, In e (ex_sched k) -> exists i, e = Move i 50 first_cand.
Proof.
  intros k e H. unfold ex_sched in H. apply in_concat in H. destruct H as (l & Hl & He). apply repeat_spec in Hl. subst l.
  destruct He as [<-|[<-|[<-|[]]]]; eauto.
Qed.
Lemma ex_sched_ok : forall k, schedule (ex_sched k) /\ eager (ex_sched k) /\ ~ In Kill (ex_sched k).
Proof.
  intros k. split; [|split].
  - intros i fuel pick H. apply ex_sched_in in H. destruct H as (j & E). injection E as _ _ ->. exact first_cand_in.
  - intros i fuel pick H. apply ex_sched_in in H. destruct H as (j & E). injection E as _ _ ->. exact first_cand_picks.
  - intros H. apply ex_sched_in in H. destruct H as (j & E). discriminate.
Qed.
Lemma ex_four_searchable : forall I, In I ex_four -> searchable I [] (usable ex_four [] empty_family).
Proof.
  intros I [<-|[]]. apply mk4_searchable; [repeat constructor; simpl; intuition discriminate| |discriminate].
  intros a []; reflexivity.
Qed.

Definition ex_all_opts : par_opts := mkParOpts 0 true true false.
Example C79_example_all :
  exists g0, begin_search first_place no_clash 50 2 empty_family ex_four [] = Some g0 /\
    let g := run first_place no_clash 0 0 0 50 ex_all_opts g0 (ex_sched 40) in
    over g /\
    map r_acts (g_reported g) = [[4; 0; 1; 2]; [4; 0; 1; 3]; [4; 0; 2]; [4; 0; 3]; [4; 1; 2]; [4; 1; 3]] /\
    forall A, solution ex_four [] (sets empty_family) no_clash A -> exists r, In r (g_reported g) /\ incl (r_acts r) A.
Proof.
  destruct (begin_search first_place no_clash 50 2 empty_family ex_four []) as [g0|] eqn:E; [|vm_compute in E; discriminate].
  exists g0. split; auto. intros g. destruct (ex_sched_ok 40) as (S1 & S2 & S3).
  assert (Hv : over g /\ map r_acts (g_reported g) = [[4; 0; 1; 2]; [4; 0; 1; 3]; [4; 0; 2]; [4; 0; 3]; [4; 1; 2]; [4; 1; 3]]).
  { unfold g. clear S1 S2 S3 g. vm_compute in E. injection E as <-. split.
    - intros t. vm_compute. intros [<-|[<-|[]]]; reflexivity.
    - vm_compute. reflexivity. }
  destruct Hv as (V1 & V2). split; auto. split; auto.
  apply (C79_all_solutions_are_covered first_place no_clash 0 50 ex_all_opts ex_four [] empty_family 2 g0 (ex_sched 40)); auto.
  - constructor.
  - discriminate.
  - exact ex_four_searchable.
Qed.

(** Two threads that find that there is no solution (the instances of C62). *)
Example C79_example_none :
  exists g0, begin_search first_place no_clash 50 2 empty_family ex_torn [] = Some g0 /\
    let g := run first_place no_clash 0 0 0 50 (mkParOpts 0 false false true) g0 (ex_sched 20) in
    over g /\ result g = None /\ ~ exists A, solution ex_torn [] (sets empty_family) no_clash A.
Proof.
  destruct (begin_search first_place no_clash 50 2 empty_family ex_torn []) as [g0|] eqn:E; [|vm_compute in E; discriminate].
  exists g0. split; auto. intros g. destruct (ex_sched_ok 20) as (S1 & S2 & S3).
  assert (Hv : over g /\ result g = None).
  { unfold g. clear S1 S2 S3 g. vm_compute in E. injection E as <-. split.
    - intros t. vm_compute. intros [<-|[<-|[]]]; reflexivity.
    - vm_compute. reflexivity. }
  destruct Hv as (V1 & V2). split; auto. split; auto.
  apply (C79_no_result_means_none first_place no_clash 0 50 (mkParOpts 0 false false true) ex_torn [] empty_family 2 g0 (ex_sched 20)); auto.
  - constructor.
  - discriminate.
  - destruct C62_example as (_ & _ & _ & H & _). exact H.
Qed.

(** ** With a limit on the size of conflicts below that of a solution, the
    recorded solution is trimmed away with the next merge, and the same solution
    is counted again and again: -try-all then does not end. *)
Theorem C79_trimmed_solution_counted_again_refuted :
  exists g0, begin_search first_place no_clash 50 1 empty_family ex_four [] = Some g0 /\
    let g := run first_place no_clash 0 0 1 50 ex_all_opts g0 (ex_sched 20) in
    g_done g = false /\ 3 <= length (g_reported g) /\
    forall r, In r (g_reported g) -> r_acts r = [4; 0; 1; 2].
Proof.
  destruct (begin_search first_place no_clash 50 1 empty_family ex_four []) as [g0|] eqn:E; [|vm_compute in E; discriminate].
  exists g0. split; auto. vm_compute in E. injection E as <-. split; [vm_compute; reflexivity|]. split; [apply Nat.leb_le; vm_compute; reflexivity|].
  intros r Hr. apply (in_map r_acts) in Hr. revert Hr. generalize (r_acts r). intros a. vm_compute. intuition congruence.
Qed.
Print Assumptions C79_trimmed_solution_counted_again_refuted.

(** ** C80: minimising the conflicts of a file -- in any order, split among threads
    in any way -- gives conflicts that still reject all that was rejected and no
    solution.  The conflicts to be minimised consist of actions that after the
    start are chosen or still candidates. *)
Theorem C80_minimised_conflicts_are_sound :
  forall place clash max_conflict_sz rounds insts given f f1 base given_out f',
    built place f -> insts <> [] -> length insts <= 2 ->
    (forall I, In I insts -> searchable I given (usable insts given f)) ->
    start place clash rounds f insts given = (f1, Good base) ->
    (forall cs c, In cs given_out -> In c cs ->
      In c (sets f) /\ forall x, In x c -> exists p, In p base /\ (In x (p_cands p) \/ In x (p_actions p))) ->
    minimise_all place clash max_conflict_sz rounds base f1 f given_out = Good f' ->
    (forall A, rejected (sets f) A -> rejected (sets f') A) /\
    (forall A, solution insts given (sets f) clash A -> ~ rejected (sets f') A).
Proof.
  intros place clash mc rounds insts given f f1 base out f' Hf Hne Htwo Hse Es Hc E. split.
  - intros A. apply (minimise_all_grows _ _ _ _ _ _ _ _ _ _ E).
  - intros A HA. destruct (start_pass place clash rounds insts given f A f1 _ Hf Hne Htwo Hse HA Es) as (_ & H).
    destruct (H base eq_refl) as (H1 & H2 & H3 & H4 & H5).
    apply (minimise_all_safe place clash mc rounds insts given (sets f) (usable insts given f) A base Htwo Hne Hse HA H2 H3
      f1 out f f' H1) in E; [|split; auto; intros A' HA'; apply (so_conflicts _ _ _ _ _ HA')|].
    + destruct E as (_ & E). apply E. auto.
    + intros cs c Hcs Hi. destruct (Hc cs c Hcs Hi) as (C1 & C2). split; auto. intros x Hx.
      destruct (C2 x Hx) as (p & Hp & [Y|Y]); [left|right]; exists p; auto.
Qed.
Print Assumptions C80_minimised_conflicts_are_sound.

(** The two orders by size: every conflict once, the sizes in order. *)
Lemma sorted_app : forall A (R : A -> A -> Prop) l1 l2, StronglySorted R l1 -> StronglySorted R l2 ->
  (forall a b, In a l1 -> In b l2 -> R a b) -> StronglySorted R (l1 ++ l2).
Proof.
  intros A R l1 l2 H1 H2 H. induction H1 as [|a l1 H1 IH Ha]; cbn; auto. constructor.
  - apply IH. intros x y Hx. apply H. right. auto.
  - apply Forall_app. split; auto. apply Forall_forall. intros y Hy. apply H; auto. left. auto.
Qed.
Lemma sizes_sorted : forall (R : nat -> nat -> Prop) cs ns, (forall n, R n n) -> StronglySorted R ns ->
  StronglySorted (fun a b : fset => R (length a) (length b)) (flat_map (fun n => of_size n cs) ns).
Proof.
  intros R cs ns Hr H.
  assert (Hsz : forall n a, In a (of_size n cs) -> length a = n).
  { intros n a Ha. apply filter_In in Ha. destruct Ha as (_ & Ha). apply Nat.eqb_eq. exact Ha. }
  induction H as [|n ns H IH Hn]; cbn [flat_map]; [constructor|]. apply sorted_app; auto.
  - assert (X : forall l, (forall a, In a l -> length a = n) -> StronglySorted (fun a b : fset => R (length a) (length b)) l).
    { induction l as [|a l IHl]; intros Hl; constructor.
      - apply IHl. intros b Hb. apply Hl. right. auto.
      - apply Forall_forall. intros b Hb. rewrite (Hl a (or_introl eq_refl)), (Hl b (or_intror Hb)). auto. }
    apply X. intros a Ha. apply (Hsz n a Ha).
  - intros a b Ha Hb. apply in_flat_map in Hb. destruct Hb as (k & Hk & Hb). rewrite (Hsz _ _ Ha), (Hsz _ _ Hb).
    rewrite Forall_forall in Hn. auto.
Qed.
Lemma seq_sorted : forall n s, StronglySorted le (seq s n).
Proof.
  induction n as [|n IH]; intros s; cbn; constructor; auto. apply Forall_forall. intros x Hx. apply in_seq in Hx. lia.
Qed.
Lemma rev_sorted : forall l, StronglySorted le l -> StronglySorted ge (rev l).
Proof.
  intros l H. induction H as [|a l H IH Ha]; cbn; [constructor|]. apply sorted_app; auto.
  - repeat constructor.
  - intros x y Hx [<-|[]]. rewrite Forall_forall in Ha. apply in_rev in Hx. apply Ha. exact Hx.
Qed.

Theorem C80_orders_by_size :
  forall cs,
    Permutation (lo_hi cs) cs /\ StronglySorted (fun a b : fset => length a <= length b) (lo_hi cs) /\
    Permutation (hi_lo cs) cs /\ StronglySorted (fun a b : fset => length a >= length b) (hi_lo cs).
Proof.
  intros cs.
  assert (Hin : forall c, In c cs -> In (length c) (seq 0 (S (max_size cs)))).
  { intros c Hc. apply in_seq. pose proof (max_size_in cs c Hc). lia. }
  split; [|split; [|split]].
  - apply of_size_flat; auto. apply seq_NoDup.
  - apply sizes_sorted; [auto|apply seq_sorted].
  - apply of_size_flat; [apply NoDup_rev, seq_NoDup|]. intros c Hc. rewrite <- in_rev. auto.
  - apply (sizes_sorted ge); [auto|apply rev_sorted, seq_sorted].
Qed.
Print Assumptions C80_orders_by_size.

(** A conflict of three actions that is minimised to two.  In the second instance 0
    and 2 make a livelock; 4 is in every solution. *)
Definition knot_axn (a : nat) (s t : st4) : bool :=
  match s, t with Z, X => a =? 0 | X, Z => a =? 2 | _, L => (a =? 4) && negb (only_L s) | _, _ => false end.
Definition ex_knot : list inst := [mk4 only_L need_axn [0; 1; 2; 3; 4] false; mk4 only_L knot_axn [0; 1; 2; 3; 4] false].
Definition ex_conf : family := add_conflict first_place empty_family [0; 2; 4].

Example C80_example :
  exists f1 base f',
    (forall I, In I ex_knot -> searchable I [] (usable ex_knot [] ex_conf)) /\
    start first_place no_clash 50 ex_conf ex_knot [] = (f1, Good base) /\
    (forall x, In x [0; 2; 4] -> exists p, In p base /\ (In x (p_cands p) \/ In x (p_actions p))) /\
    minimise_all first_place no_clash 0 50 base f1 ex_conf [[]; [[0; 2; 4]]] = Good f' /\ sets f' = [[0; 2]] /\
    solution ex_knot [] (sets ex_conf) no_clash [0; 3; 4].
Proof.
  assert (HS : forall I, In I ex_knot -> searchable I [] (usable ex_knot [] ex_conf)).
  { intros I [<-|[<-|[]]]; (apply mk4_searchable; [repeat constructor; simpl; intuition discriminate| |discriminate]).
    - intros a []; reflexivity.
    - intros a []; cbn; rewrite ?andb_false_r; reflexivity. }
  destruct (start first_place no_clash 50 ex_conf ex_knot []) as (f1, [base| |]) eqn:E; try (vm_compute in E; discriminate).
  destruct (minimise_all first_place no_clash 0 50 base f1 ex_conf [[]; [[0; 2; 4]]]) as [f'| |] eqn:E2;
    try (vm_compute in E; injection E as <- <-; vm_compute in E2; discriminate).
  exists f1, base, f'. split; [exact HS|]. split; auto. split; [|split; [auto|split]].
  - assert (X : forallb (fun x => existsb (fun p => memb x (p_cands p) || memb x (p_actions p)) base) [0; 2; 4] = true)
      by (vm_compute in E; injection E as <- <-; vm_compute; reflexivity).
    rewrite forallb_forall in X. intros x Hx. specialize (X x Hx). apply existsb_exists in X. destruct X as (p & Hp & X).
    exists p. split; auto. apply orb_true_iff in X. rewrite !memb_spec in X. auto.
  - vm_compute in E. injection E as <- <-. vm_compute in E2. injection E2 as <-. reflexivity.
  - split.
    + intros x [].
    + intros I [<-|[<-|[]]] a Ha; right; cbn; simpl in Ha; tauto.
    + intros (b & Hb & Hi). vm_compute in Hb. destruct Hb as [<-|[]]. specialize (Hi 2 (or_intror (or_introl eq_refl))). simpl in Hi. intuition discriminate.
    + reflexivity.
    + intros I [<-|[<-|[]]]; (apply check_stabilises; [apply mk4_proper|apply mk4_plain|vm_compute; reflexivity]).
Qed.
