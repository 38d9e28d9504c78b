(** Properties C19-C26: the conflict family.  [place] is where the (external)
    ordered tree puts a new set; nothing depends on it. *)
From Coq Require Import List Arith Lia Bool Sorting.Sorted.
From Verif Require Import ConflictSpec ConflictModel ConflictProofs.
Import ListNotations.

(** A concrete tree order for the examples: append. *)
Definition at_end (b : fset) (ss : list fset) : nat := length ss.

(** ** C19 *)
Theorem C19_add_exact :
  forall place f b t,
    conflict_ck (add_conflict place f b) t = true <-> conflict_ck f t = true \/ incl b t.
Proof. exact add_exact. Qed.
Print Assumptions C19_add_exact.

Theorem C19_history_exact :
  forall place hist t,
    conflict_ck (fold_left (add_conflict place) hist empty_family) t = true <-> rejected hist t.
Proof. exact history_exact. Qed.
Print Assumptions C19_history_exact.

Theorem C19_exact_check :
  forall f t, exact_conflict_ck f t = true <-> In t (sets f).
Proof. intros f t. apply exact_loop_spec. Qed.
Print Assumptions C19_exact_check.

Example C19_example :
  let f := fold_left (add_conflict at_end) [[1; 2; 3]; [4; 5]; [2; 3]; [2; 3; 7]] empty_family in
  sets f = [[4; 5]; [2; 3]] /\ conflict_ck f [1; 2; 3] = true /\ conflict_ck f [1; 2; 4] = false.
Proof. repeat split. Qed.

(** ** C20 *)
Theorem C20_stored_are_the_minimal_sets :
  forall place hist s, Forall set_ok hist ->
    (In s (sets (fold_left (add_conflict place) hist empty_family)) <->
     In s hist /\ forall b, In b hist -> incl b s -> b = s).
Proof. exact stored_minimal. Qed.
Print Assumptions C20_stored_are_the_minimal_sets.

Theorem C20_antichain :
  forall place f, built place f -> antichain (sets f).
Proof. intros. eapply built_inv; eauto. Qed.
Print Assumptions C20_antichain.

Example C20_example : built at_end
  (trim (add_impossible at_end (add_conflict at_end empty_family [1; 2; 3]) 2) 4).
Proof. repeat constructor. Qed.

(** ** C21 *)
Theorem C21_unsat_iff_empty_declared :
  forall place hist,
    sat_ck (fold_left (add_conflict place) hist empty_family) = false <-> In [] hist.
Proof. exact sat_history. Qed.
Print Assumptions C21_unsat_iff_empty_declared.

Theorem C21_unsat_iff_everything_rejected :
  forall place f, built place f ->
    (sat_ck f = false <-> forall t, conflict_ck f t = true).
Proof.
  intros place f H. rewrite sat_spec by (eapply built_inv; eauto). split.
  - intros HC t. eapply conflict_mono; eauto. intros x [].
  - auto.
Qed.
Print Assumptions C21_unsat_iff_everything_rejected.

Example C21_example :
  sat_ck (fold_left (add_conflict at_end) [[1]; [2; 3]; []; [4]] empty_family) = false.
Proof. reflexivity. Qed.

(** A family read from a file is not reduced, and then the check can miss that
    everything is conflicting. *)
Theorem C21_after_reading_refuted :
  forall place, exists toks,
    sat_ck (xget place empty_family toks) = true /\
    forall t, conflict_ck (xget place empty_family toks) t = true.
Proof.
  intros place. exists [2; 1; 7; 0]. 
  assert (E : exists n, sets (xget place empty_family [2; 1; 7; 0]) =
                firstn n [[7]] ++ [] :: skipn n [[7]]).
  { assert (E1 : set_add place [] [7] = [[7]]).
    { unfold set_add. cbn [set_mem existsb]. rewrite firstn_nil, skipn_nil. reflexivity. }
    exists (place [] [[7]]).
    change (set_add place (set_add place [] [7]) [] = firstn (place [] [[7]]) [[7]] ++ [] :: skipn (place [] [[7]]) [[7]]).
    rewrite E1. reflexivity. }
  destruct E as (n & E). unfold sat_ck, conflict_ck. rewrite E.
  destruct n as [|n]; [split; auto|]. cbn [firstn skipn app]. rewrite firstn_nil, skipn_nil. split; auto.
  intros t. cbn [app conflict_loop]. destruct (subseteq [7] t); auto.
Qed.
Print Assumptions C21_after_reading_refuted.

(** ** C22 *)
Theorem C22_flat_table_is_one_by_one :
  forall place f ss, Forall set_ok ss ->
    add_flat_conflicts place f (flatten ss) = Some (fold_left (add_conflict place) ss f).
Proof. exact flat_sound. Qed.
Print Assumptions C22_flat_table_is_one_by_one.

Theorem C22_flat_roundtrip :
  forall place f, built place f ->
    exists g, add_flat_conflicts place empty_family (all_conflicts_flat f) = Some g /\
      forall s, In s (sets g) <-> In s (sets f).
Proof.
  intros place f H. destruct (built_inv place f H) as (I1 & I2 & _).
  exists (fold_left (add_conflict place) (sets f) empty_family).
  split; [apply flat_sound; auto|]. intros s. apply adds_antichain_id; auto.
Qed.
Print Assumptions C22_flat_roundtrip.

(** Writing a family to a file and reading it into any family. *)
Theorem C22_file_roundtrip :
  forall place f g, built place f ->
    let h := xget place g (oput f) in
    (forall s, In s (sets h) <-> In s (sets f)) /\ length (sets h) = length (sets f) /\
    (forall e, In e (impossible h) <-> In [e] (sets f)).
Proof.
  intros place f g H h. destruct (built_inv place f H) as ((I0 & I1) & I2 & _).
  destruct (xget_loop_spec place (sets f) (mkFamily [] (news g) (recording g) []) [] I2) as (J1 & J2 & J3).
  rewrite app_nil_r in *.
  change (xget_loop place (length (sets f)) (mkFamily [] (news g) (recording g) []) (flatten (sets f)))
    with h in *. cbn [sets impossible] in J1, J2, J3.
  assert (HI : forall s, In s (sets h) <-> In s (sets f)) by (intros s; rewrite J1; simpl; tauto).
  split; auto. split.
  - apply Nat.le_antisymm; apply NoDup_incl_length; auto; try (intros s; apply HI). apply J3. constructor.
  - intros e. rewrite J2. simpl. tauto.
Qed.
Print Assumptions C22_file_roundtrip.

Example C22_example :
  let f := fold_left (add_conflict at_end) [[1; 2; 3]; [4]; [2; 3]] empty_family in
  all_conflicts_flat f = [1; 4; 2; 2; 3] /\ oput f = [2; 1; 4; 2; 2; 3] /\
  sets (xget at_end empty_family (oput f)) = [[4]; [2; 3]].
Proof. repeat split. Qed.

(** ** C23 *)
Theorem C23_exchange_complete :
  forall place evs r, Forall set_ok (declared evs) ->
    exists s' r', exchange place (evs ++ [Exchange]) empty_family r = Some (s', r') /\
      (forall t, conflict_ck s' t = true <-> rejected (declared evs) t) /\
      (forall t, conflict_ck r' t = true <-> conflict_ck r t = true \/ rejected (declared evs) t).
Proof. exact exchange_complete. Qed.
Print Assumptions C23_exchange_complete.

(** Same when the sender starts from conflicts the receiver already has and
    has marked them as sent (main-mpi.cc:119). *)
Theorem C23_exchange_complete_shared_start :
  forall place s0 evs r, Forall set_ok (sets s0) -> Forall set_ok (declared evs) ->
    (forall t, conflict_ck s0 t = true -> conflict_ck r t = true) ->
    exists s' r', exchange place (evs ++ [Exchange]) (flush_drop s0) r = Some (s', r') /\
      forall t, conflict_ck r' t = true <-> conflict_ck r t = true \/ rejected (declared evs) t.
Proof. exact exchange_shared_start. Qed.
Print Assumptions C23_exchange_complete_shared_start.

Example C23_example :
  let evs := [Declare [1; 2]; Exchange; Declare [3]; Declare [1]; Exchange; Declare [5; 6]] in
  Forall set_ok (declared evs) /\
  exists s' r', exchange at_end (evs ++ [Exchange]) empty_family empty_family = Some (s', r') /\
    sets r' = [[1]; [3]; [5; 6]].
Proof.
  split; [repeat constructor|]. vm_compute. eauto.
Qed.

(** Conflicts read from a file after the first flush are never sent. *)
Theorem C23_read_conflicts_not_sent_refuted :
  forall place, exists toks s t,
    s = xget place (snd (flush_new empty_family)) toks /\
    conflict_ck s t = true /\ fst (flush_new s) = [].
Proof.
  intros place. exists [1; 1; 7], (xget place (snd (flush_new empty_family)) [1; 1; 7]), [7].
  split; auto. split; [|reflexivity].
  apply conflict_loop_spec. exists [7]. split; [|apply incl_refl].
  change (In [7] (set_add place [] [7])). apply set_add_in. auto.
Qed.
Print Assumptions C23_read_conflicts_not_sent_refuted.

(** ** C24 *)
Theorem C24_trim_exact :
  forall f n s, In s (sets (trim f n)) <-> In s (sets f) /\ (n = 0 \/ length s <= n).
Proof. exact trim_sets. Qed.
Print Assumptions C24_trim_exact.

Theorem C24_trim_weakens :
  forall f n t, conflict_ck (trim f n) t = true -> conflict_ck f t = true.
Proof.
  intros f n t. unfold conflict_ck. rewrite !conflict_loop_spec. intros (b & Hb & Hi).
  apply trim_sets in Hb. exists b. tauto.
Qed.
Print Assumptions C24_trim_weakens.

Theorem C24_merge_exact :
  forall place f g t,
    conflict_ck (add_family place f g) t = true <-> conflict_ck f t = true \/ conflict_ck g t = true.
Proof. exact merge_exact. Qed.
Print Assumptions C24_merge_exact.

Theorem C24_difference_exact :
  forall f g s, In s (sets (cf_minus f g)) <-> In s (sets f) /\ ~ In s (sets g).
Proof. intros. apply set_diff_in. Qed.
Print Assumptions C24_difference_exact.

Example C24_example :
  let f := fold_left (add_conflict at_end) [[1; 2; 3]; [4]; [5; 6]] empty_family in
  let g := fold_left (add_conflict at_end) [[1; 2]; [5; 6]] empty_family in
  sets (trim f 2) = [[4]; [5; 6]] /\ sets (add_family at_end f g) = [[4]; [5; 6]; [1; 2]] /\
  sets (cf_minus f g) = [[1; 2; 3]; [4]].
Proof. repeat split. Qed.

(** How many stored sets have each size. *)
Theorem C24_sizes_exact :
  forall f j, nth j (conflict_sizes f) 0 = length (filter (fun s => length s =? j) (sets f)).
Proof. intros f j. unfold conflict_sizes. rewrite sizes_spec. destruct j; reflexivity. Qed.
Print Assumptions C24_sizes_exact.

(** ** C25 *)
Theorem C25_members_exact :
  forall place f t count ok ms, built place f ->
    conflict_membs f t count [] = (ok, ms) ->
    (ok = false <-> conflict_ck f t = true) /\
    (ok = true -> forall e, In e ms <-> In e count /\ conflict_ck f (e :: t) = true).
Proof.
  intros place f t count ok ms H E. destruct (built_inv place f H) as (_ & I2 & _).
  destruct (conflict_membs_spec t count (sets f) [] ok ms I2 E) as [C1 C2].
  unfold conflict_ck. rewrite conflict_loop_spec. split; auto.
  intros Hok e. rewrite (C2 Hok e). unfold conflict_ck. rewrite conflict_loop_spec. simpl. tauto.
Qed.
Print Assumptions C25_members_exact.

Theorem C25_superset_members_exact :
  forall place f t count e, built place f -> set_ok t ->
    (In e (superset_membs f t count) <->
     In e count /\ ~ In e t /\ exists c, In c (sets f) /\ incl t c /\ In e c).
Proof.
  intros place f t count e H Ht. apply superset_membs_spec; auto.
  destruct (built_inv place f H) as (_ & I2 & _). auto.
Qed.
Print Assumptions C25_superset_members_exact.

Example C25_example :
  let f := fold_left (add_conflict at_end) [[1; 2; 3]; [2; 4]; [2; 3; 5; 6]; [7]] empty_family in
  conflict_membs f [2; 3] [1; 4; 5; 7; 8] [] = (true, [7; 4; 1]) /\
  superset_membs f [2; 3] [1; 4; 5; 7; 8] = [1; 5].
Proof. repeat split. Qed.

(** ** C26 *)
Theorem C26_impossible_sound :
  forall place f e t, built place f -> In e (impossible f) -> In e t -> conflict_ck f t = true.
Proof.
  intros place f e t H He Ht. destruct (built_inv place f H) as (_ & _ & I3 & _).
  eapply conflict_mono; [apply I3; eauto|]. intros x [<-|[]]. auto.
Qed.
Print Assumptions C26_impossible_sound.

Theorem C26_impossible_complete :
  forall place f e, built place f -> In [e] (sets f) -> In e (impossible f).
Proof. intros place f e H. destruct (built_inv place f H) as (_ & _ & _ & I4). auto. Qed.
Print Assumptions C26_impossible_complete.

(** Exactly which addition records an element. *)
Theorem C26_recorded_when_new :
  forall place f b e,
    In e (impossible (add_conflict place f b)) <->
    In e (impossible f) \/ (b = [e] /\ conflict_ck f b = false).
Proof. exact add_impossible_set. Qed.
Print Assumptions C26_recorded_when_new.

Example C26_example :
  impossible (add_impossible at_end (add_conflict at_end empty_family [3]) 5) = [5; 3].
Proof. reflexivity. Qed.
