(** Properties C75 and C76: the generator of hard ring protocols. *)
From Coq Require Import List Arith Lia Bool Relations.
From Verif Require Import FinLib UniModel UniSpec UniProofs LivelockModel LivelockSpec LivelockProofs LivelockProofs3 LivelockProofs4
  CanonModel CanonSpec CanonProofs GenModel GenSpec GenProofs GenProofs6 GenProofs9 GenProofs10 GenProofs11.
Import ListNotations.

(** What a protocol must meet to be printed, apart from how the search reaches
    it: it is admissible; no block within the period limit is a livelock, yet
    the check of C55 does not exclude one; each action returns to itself; and no
    tried renaming makes it smaller. *)
Definition printable (M period : nat) (nw : bool) (t : list nat) : Prop :=
  table_ok M t /\
  admissible nw (table_protocol M t) /\
  starts (table_protocol M t) /\
  livelock_semick period t M = RMay /\
  (forall a b c, table_protocol M t a b c -> recurs (table_protocol M t) a b) /\
  canonical_ck t M = true.

Lemma printable_hard : forall o t,
  printable (domsz o) (max_period o) (nw_disabling o) t <-> hard o t /\ starts (table_protocol (domsz o) t).
Proof. intros o t. unfold printable, hard. tauto. Qed.

(** ** C75 *)

(** With three or more values the search ends without a failed claim. *)
Theorem C75_search_ends :
  forall o, 3 <= domsz o -> given_acts o = [] -> exists printed frontier, searchit o = Some (printed, frontier).
Proof.
  intros o M3 G. destruct (all_spec o ltac:(lia) M3) as (p & f & E & _). exists p, f. unfold searchit. rewrite G. auto.
Qed.
Print Assumptions C75_search_ends.

(** With fewer values it fails a claim. *)
Theorem C75_small_domains_refuted :
  forall o, domsz o <= 2 -> given_acts o = [] -> searchit o = None.
Proof.
  intros o M2 G. unfold searchit. rewrite G. unfold search_all.
  assert (L : forall c, recurse_at o c 0 1 2 = None).
  { intros c. unfold recurse_at. rewrite (proj2 (Nat.ltb_ge 2 (domsz o))) by lia. rewrite andb_false_r. auto. }
  destruct (recurse_at o (start_candidates o) 0 0 1) as [[[anc p] f]|]; auto.
  destruct (nw_disabling o); [rewrite L; auto|].
  destruct (recurse_at o _ 0 1 0) as [[[anc' p'] f']|]; auto. rewrite L. auto.
Qed.
Print Assumptions C75_small_domains_refuted.

(** Whatever the options, only printable protocols are printed, each once, and
    none beyond the depth limit. *)
Theorem C75_printed_is_printable :
  forall o printed frontier, 3 <= domsz o -> given_acts o = [] -> searchit o = Some (printed, frontier) ->
    NoDup printed /\
    forall t, In t printed ->
      printable (domsz o) (max_period o) (nw_disabling o) t /\
      ~ cut_off (domsz o) 1 (max_depth o) (dfs_threshold o) t.
Proof.
  intros o p f M3 G E. unfold searchit in E. rewrite G in E.
  destruct (all_spec o ltac:(lia) M3) as (p' & f' & E' & H1 & H2 & _). rewrite E in E'. injection E' as <- <-.
  split; [auto|]. intros t Ht. destruct (H2 t Ht) as (Q1 & Q2 & Q3). split; [apply printable_hard; auto|auto].
Qed.
Print Assumptions C75_printed_is_printable.

(** Without the guided check (at most as many propagations as the period limit)
    exactly these are printed. *)
Theorem C75_printed_exactly :
  forall o printed frontier, 3 <= domsz o -> given_acts o = [] -> max_propagations o <= max_period o ->
    searchit o = Some (printed, frontier) ->
    forall t, In t printed <->
      printable (domsz o) (max_period o) (nw_disabling o) t /\
      ~ cut_off (domsz o) 1 (max_depth o) (dfs_threshold o) t.
Proof.
  intros o p f M3 G He E t. split; [apply (C75_printed_is_printable o p f M3 G E)|].
  intros [HP HC]. unfold searchit in E. rewrite G in E.
  destruct (all_spec o ltac:(lia) M3) as (p' & f' & E' & _ & _ & H3 & _). rewrite E in E'. injection E' as <- <-.
  apply printable_hard in HP. apply H3; auto; apply HP.
Qed.
Print Assumptions C75_printed_exactly.

(** Without -max-depth nothing is cut off: all protocols are printed, however many actions they have. *)
Theorem C75_default_depth_is_no_limit :
  forall o printed frontier, 3 <= domsz o -> given_acts o = [] -> max_depth o = 0 ->
    max_propagations (commit_domsz o) <= max_period (commit_domsz o) ->
    searchit (commit_domsz o) = Some (printed, frontier) ->
    forall t, In t printed <-> printable (domsz o) (max_period (commit_domsz o)) (nw_disabling o) t.
Proof.
  intros o p f M3 G D Hp E t.
  rewrite (C75_printed_exactly (commit_domsz o) p f) by auto. cbn [domsz max_depth nw_disabling dfs_threshold commit_domsz].
  rewrite D. cbn [Nat.eqb]. split; [tauto|]. intros H. split; auto.
  intros (i & I & _ & Nr & _ & U & j & J & _).
  assert (L : upto (domsz o) t i <= i + 1); [|lia].
  unfold upto, positions. rewrite <- (seq_length (i + 1) 0). apply NoDup_incl_length.
  - apply NoDup_filter, NoDup_filter, seq_NoDup.
  - intros x X. apply filter_In in X. destruct X as (_ & X). apply Nat.leb_le in X. apply in_seq. lia.
Qed.
Print Assumptions C75_default_depth_is_no_limit.

Definition gen_options (M period ppgs : nat) (nw : bool) (acts : list UniAct) : SearchOpt :=
  {| domsz := M; max_depth := M * M; max_period := period; max_propagations := ppgs; nw_disabling := nw;
     trust_given := false; bfs := false; dfs_threshold := 0; given_acts := acts |}.

Example C75_example :
  searchit (gen_options 3 2 1 false []) =
    Some ([[1; 3; 1; 2; 2; 3; 3; 0; 0]; [1; 3; 3; 3; 2; 3; 3; 3; 0];
           [3; 0; 3; 3; 3; 1; 2; 3; 3]; [3; 2; 3; 3; 3; 0; 1; 3; 3]], []).
Proof. vm_compute. reflexivity. Qed.

Lemma table_eqb_false : forall (t : list nat) l,
  existsb (fun u => if list_eq_dec Nat.eq_dec t u then true else false) l = false -> ~ In t l.
Proof.
  intros t l E Hin. assert (X : existsb (fun u => if list_eq_dec Nat.eq_dec t u then true else false) l = true).
  { apply existsb_exists. exists t. split; [auto|]. destruct (list_eq_dec Nat.eq_dec t t); [auto|congruence]. }
  congruence.
Qed.

(** With the guided check a hit in one protocol also discards others: here a
    protocol which passes the checks itself is not printed. *)
Theorem C75_guided_check_loses_a_protocol_refuted :
  exists o t printed frontier, max_period o < max_propagations o /\
    searchit o = Some (printed, frontier) /\ ~ In t printed /\
    periodic_leads_semick o (actset_of_ppgfun t (domsz o)) t [] = LEnd true /\ canonical_ck t (domsz o) = true /\
    exists printed' frontier',
      searchit (gen_options (domsz o) (max_period o) (max_period o) (nw_disabling o) (given_acts o)) =
        Some (printed', frontier') /\ In t printed'.
Proof.
  exists (gen_options 4 2 16 false [(0, 1, 0); (0, 2, 3)]), [4; 0; 3; 4; 4; 4; 4; 2; 2; 4; 4; 1; 4; 3; 0; 4].
  assert (X : match searchit (gen_options 4 2 16 false [(0, 1, 0); (0, 2, 3)]) with
      Some (p, _) => existsb (fun u => if list_eq_dec Nat.eq_dec [4; 0; 3; 4; 4; 4; 4; 2; 2; 4; 4; 1; 4; 3; 0; 4] u then true else false) p
      | None => true end = false) by (vm_compute; reflexivity).
  destruct (searchit (gen_options 4 2 16 false [(0, 1, 0); (0, 2, 3)])) as [[p f]|]; [|discriminate].
  exists p, f. split; [cbn; lia|]. split; [reflexivity|]. split; [apply table_eqb_false; exact X|]. clear X.
  split; [vm_compute; reflexivity|]. split; [vm_compute; reflexivity|].
  cbn [domsz max_period nw_disabling given_acts gen_options].
  assert (X : match searchit (gen_options 4 2 2 false [(0, 1, 0); (0, 2, 3)]) with
      Some (p, _) => existsb (fun u => if list_eq_dec Nat.eq_dec [4; 0; 3; 4; 4; 4; 4; 2; 2; 4; 4; 1; 4; 3; 0; 4] u then true else false) p
      | None => false end = true) by (vm_compute; reflexivity).
  destruct (searchit (gen_options 4 2 2 false [(0, 1, 0); (0, 2, 3)])) as [[p' f']|]; [|discriminate].
  exists p', f'. split; [reflexivity|].
  apply existsb_exists in X. destruct X as (u & Hu & X).
  destruct (list_eq_dec Nat.eq_dec _ u) as [Eu|]; [rewrite Eu; auto|discriminate].
Qed.
Print Assumptions C75_guided_check_loses_a_protocol_refuted.

(** Two printed protocols can be the same up to the names of values. *)
Theorem C75_printed_up_to_renaming_refuted :
  exists o printed frontier t t' pi, max_propagations o <= max_period o /\
    searchit o = Some (printed, frontier) /\ In t printed /\ In t' printed /\ t <> t' /\
    renaming (domsz o) pi /\ renamed (domsz o) pi t t'.
Proof.
  set (o := gen_options 4 3 3 true []).
  set (t := [1; 4; 1; 4; 4; 2; 4; 0; 1; 4; 3; 4; 4; 0; 4; 0]).
  set (t' := [1; 4; 1; 4; 4; 2; 4; 2; 1; 4; 3; 4; 4; 2; 4; 0]).
  set (inb := fun t => existsb (fun u => if list_eq_dec Nat.eq_dec t u then true else false)).
  assert (X : (match searchit o with Some (p, _) => inb t p && inb t' p | None => false end) = true)
    by (vm_compute; reflexivity).
  destruct (searchit o) as [[p f]|] eqn:E; [|discriminate]. apply andb_prop in X. destruct X as [X1 X2].
  assert (IN : forall u, inb u p = true -> In u p).
  { intros u H. apply existsb_exists in H. destruct H as (v & Hv & H).
    destruct (list_eq_dec Nat.eq_dec u v) as [->|]; [auto|discriminate]. }
  assert (Ok : table_ok 4 t) by (split; [reflexivity|unfold t; repeat (constructor; [lia|]); constructor]).
  assert (Hm : is_perm 4 [1; 2; 3; 0]) by (apply permb_spec; reflexivity).
  destruct (permute_renamed 4 t [1; 2; 3; 0] ltac:(lia) Ok Hm) as [R1 R2].
  replace (permute_pc_act t [1; 2; 3; 0] 4) with t' in R2 by (vm_compute; reflexivity).
  exists o, p, f, t, t', (fun a => nth a [1; 2; 3; 0] 0).
  split; [cbn; lia|]. split; [auto|]. split; [auto|]. split; [auto|]. split; [discriminate|]. split; [exact R1|exact R2].
Qed.
Print Assumptions C75_printed_up_to_renaming_refuted.

(** With given actions, those of a table [t0]: the same for the protocols that
    start with them. *)
Theorem C75_given_actions :
  forall o t0, domsz o <> 0 -> table_ok (domsz o) t0 ->
    given_acts o = actions_of_ppgfun t0 (domsz o) ->
    admissible (nw_disabling o) (table_protocol (domsz o) t0) ->
    starts (table_protocol (domsz o) t0) ->
    (trust_given o = false -> canonical_ck t0 (domsz o) = true) ->
    exists printed frontier, searchit o = Some (printed, frontier) /\ NoDup printed /\
      let reached t :=
        printable (domsz o) (max_period o) (nw_disabling o) t /\ extends (domsz o) t0 t /\
        (trust_given o = true -> t <> t0) /\
        ~ cut_off (domsz o) (size (domsz o) t0) (max_depth o) (dfs_threshold o) t in
      (forall t, In t printed -> reached t) /\
      (max_propagations o <= max_period o -> forall t, reached t -> In t printed).
Proof.
  intros o t0 M0 Ok G Ad St Tr. destruct (given_spec o M0 t0 Ok G Ad St Tr) as (p & f & E & H1 & H2 & H3).
  exists p, f. split; [auto|]. split; [auto|]. split.
  - intros t Ht. destruct (H2 t Ht) as (Q1 & Q2 & Q3). split; [apply printable_hard; auto|auto].
  - intros He t (Q1 & Q2 & Q3 & Q4). apply printable_hard in Q1. apply H3; auto; apply Q1.
Qed.
Print Assumptions C75_given_actions.

Example C75_given_actions_example :
  let t0 := [3; 0; 3; 3; 3; 3; 3; 3; 3] in
  table_ok 3 t0 /\ actions_of_ppgfun t0 3 = [(0, 1, 0)] /\ starts (table_protocol 3 t0) /\ canonical_ck t0 3 = true /\
  searchit (gen_options 3 2 1 false (actions_of_ppgfun t0 3)) = Some ([[3; 0; 3; 3; 3; 1; 2; 3; 3]], []).
Proof.
  cbv zeta. split; [split; [reflexivity|repeat (constructor; [lia|]); constructor]|].
  split; [reflexivity|]. split; [|split; [reflexivity|vm_compute; reflexivity]].
  right; left. split; [|split; [lia|]; split; [lia|]; split; [lia|reflexivity]].
  intros a b (Ha & _ & Hb & E). destruct a as [|[|[|a]]]; simpl in E; try injection E as E; lia.
Qed.

(** Options of the runs that continue from a table of the frontier, with
    "-trustme" and no further limit. *)
Definition continue_from (o : SearchOpt) (t0 : list nat) : SearchOpt :=
  {| domsz := domsz o; max_depth := domsz o * domsz o; max_period := max_period o;
     max_propagations := max_propagations o; nw_disabling := nw_disabling o; trust_given := true;
     bfs := false; dfs_threshold := dfs_threshold o; given_acts := actions_of_ppgfun t0 (domsz o) |}.
Definition unlimited (o : SearchOpt) : SearchOpt :=
  {| domsz := domsz o; max_depth := domsz o * domsz o; max_period := max_period o;
     max_propagations := max_propagations o; nw_disabling := nw_disabling o; trust_given := trust_given o;
     bfs := false; dfs_threshold := dfs_threshold o; given_acts := [] |}.

Lemma table_det : forall M t, deterministic (table_protocol M t).
Proof. intros M t a b c d (_ & _ & _ & H1) (_ & _ & _ & H2). congruence. Qed.

Lemma bounded_dec : forall (P : nat -> Prop) n, (forall i, i < n -> {P i} + {~ P i}) ->
  {exists i, i < n /\ P i} + {~ exists i, i < n /\ P i}.
Proof.
  intros P. induction n; intros H.
  - right. intros (i & Hi & _). lia.
  - destruct IHn as [L|L]; [intros i Hi; apply H; lia| |].
    + left. destruct L as (i & Hi & Hp). exists i. split; [lia|auto].
    + destruct (H n ltac:(lia)) as [Hp|Hp]; [left; exists n; split; [lia|auto]|].
      right. intros (i & Hi & Hq). destruct (Nat.eq_dec i n); [subst; auto|]. apply L. exists i. split; [lia|auto].
Qed.

Lemma cut_off_dec : forall M g depth near t, {cut_off M g depth near t} + {~ cut_off M g depth near t}.
Proof.
  intros M g depth near t.
  assert (D : forall i, {cut_at M g depth near t i} + {~ cut_at M g depth near t i}).
  { intros i. unfold cut_at.
    destruct (lt_dec i (M * M)); [|right; tauto]. destruct (lt_dec (nth i t M) M); [|right; tauto].
    destruct (lt_dec near (M * M - 1 - i)); [|right; tauto]. destruct (le_dec 1 depth); [|right; tauto].
    destruct (Nat.eq_dec (upto M t i) (g + depth - 1)); [|right; tauto].
    destruct (bounded_dec (fun j => i < j /\ nth j t M < M) (M * M)) as [H|H].
    - intros j _. destruct (lt_dec i j), (lt_dec (nth j t M) M); tauto.
    - left. repeat (split; [assumption|]). destruct H as (j & H1 & H2 & H3). exists j. lia.
    - right. intros (_ & _ & _ & _ & _ & j & H1 & H2). apply H. exists j. lia. }
  destruct (bounded_dec (fun i => cut_at M g depth near t i) (M * M)) as [H|H]; [auto| |].
  - left. destruct H as (i & _ & H). exists i. auto.
  - right. intros (i & Hi). apply H. exists i. split; [apply Hi|auto].
Qed.

(** Splitting the work: a run limited by "-bfs" together with the runs that
    continue from the tables it leaves print what one unlimited run prints. *)
Theorem C75_split_runs :
  forall o, 3 <= domsz o -> given_acts o = [] -> bfs o = true -> 1 <= max_depth o ->
    max_propagations o <= max_period o ->
    exists near frontier all frontier', searchit o = Some (near, frontier) /\
      searchit (unlimited o) = Some (all, frontier') /\ frontier' = [] /\
      (forall t0, In t0 frontier -> size (domsz o) t0 = max_depth o /\
         exists p f, searchit (continue_from o t0) = Some (p, f)) /\
      (forall t, In t all <-> In t near \/
         exists t0 p f, In t0 frontier /\ searchit (continue_from o t0) = Some (p, f) /\ In t p).
Proof.
  intros o M3 G B HD He. set (M := domsz o) in *. assert (M0 : M <> 0) by lia.
  destruct (all_spec o M0 M3) as (p & f & E & N1 & S1 & X1 & F1 & C1).
  destruct (all_spec (unlimited o) M0 M3) as (pu & fu & Eu & Nu & Su & Xu & Fu & _).
  exists p, f, pu, fu. split; [unfold searchit; rewrite G; auto|]. split; [exact Eu|].
  split. { destruct fu as [|x fu]; [auto|]. destruct (Fu x (or_introl eq_refl)) as (Q & _). discriminate. }
  assert (Hh : forall t, hard (unlimited o) t <-> hard o t) by (intros; unfold hard; cbn; tauto).
  assert (Hc : forall t0 t, hard (continue_from o t0) t <-> hard o t) by (intros; unfold hard; cbn; tauto).
  assert (NC : forall g t, 1 <= g -> ~ cut_off M g (M * M) (dfs_threshold o) t) by (intros; apply no_cut; auto).
  assert (Run : forall t0, In t0 f -> exists p1 f1, searchit (continue_from o t0) = Some (p1, f1) /\
             given_post (continue_from o t0) t0 p1 f1).
  { intros t0 Ht0. destruct (F1 t0 Ht0) as (_ & Ok & Ad & St & _ & Sz).
    apply (given_spec (continue_from o t0)); auto. intros Q. discriminate. }
  assert (Sz : forall t0, In t0 f -> size M t0 = max_depth o) by (intros t0 Ht0; apply F1; auto).
  split. { intros t0 Ht0. split; [auto|]. destruct (Run t0 Ht0) as (p1 & f1 & E1 & _). exists p1, f1. auto. }
  intros t. split.
  - intros Ht. destruct (Su t Ht) as (Hd & St & _). apply Hh in Hd.
    destruct (cut_off_dec M 1 (max_depth o) (dfs_threshold o) t) as [HC|HC]; [right|left; apply X1; auto].
    destruct (C1 He B t Hd St HC) as (i & Hi & Hf). exists (first_actions M t i).
    destruct (Run _ Hf) as (p1 & f1 & E1 & (_ & _ & P3)). exists p1, f1. split; [auto|]. split; [auto|].
    destruct Hi as (I1 & I2 & I3 & I4 & I5 & j & Hj & Hnj).
    assert (Nth : forall k, k < M * M -> nth k (first_actions M t i) M = if k <=? i then nth k t M else M).
    { intros k Hk. unfold first_actions.
      rewrite (nth_indep _ M 0) by (rewrite map_length, seq_length; auto). rewrite nth_tabulate by auto. reflexivity. }
    apply P3; auto.
    + exists (S i). intros k Hk. change (domsz (continue_from o (first_actions M t i))) with M in *. rewrite Nth by auto.
      destruct (Nat.leb_spec k i); split; intros; auto; lia.
    + intros _ Eq. change (domsz (continue_from o (first_actions M t i))) with M in *.
      pose proof (Nth j ltac:(lia)) as Q. rewrite (proj2 (Nat.leb_gt j i)) in Q by lia.
      assert (Q' : nth j t M = M) by (rewrite Eq; exact Q). fold M in Hnj. lia.
    + apply NC. change (domsz (continue_from o (first_actions M t i))) with M. rewrite Sz by auto. auto.
  - intros [Ht|(t0 & p1 & f1 & Ht0 & E1 & Ht)].
    + destruct (S1 t Ht) as (Hd & St & _). apply Xu; [exact He|apply Hh; auto|exact St|]. apply NC. auto.
    + destruct (Run t0 Ht0) as (p2 & f2 & E2 & (_ & P2 & _)). rewrite E1 in E2. injection E2 as <- <-.
      destruct (P2 t Ht) as (Hd & St & _). apply Hc in Hd. apply Xu; [exact He|apply Hh; auto|exact St|]. apply NC. auto.
Qed.
Print Assumptions C75_split_runs.

(** Depth 2 for three values. *)
Example C75_split_runs_example :
  let o := {| domsz := 3; max_depth := 2; max_period := 2; max_propagations := 1; nw_disabling := false;
              trust_given := false; bfs := true; dfs_threshold := 0; given_acts := [] |} in
  exists f, searchit o = Some ([], f) /\ length f = 6 /\
  In [3; 0; 3; 3; 3; 1; 3; 3; 3] f /\
  searchit (continue_from o [3; 0; 3; 3; 3; 1; 3; 3; 3]) = Some ([[3; 0; 3; 3; 3; 1; 2; 3; 3]], []).
Proof. cbv zeta. eexists. split; [vm_compute; reflexivity|]. vm_compute. auto 10. Qed.

(** ** C76 *)

(** What a printed protocol is, in terms of executions and of blocks. *)
Theorem C76_printed_is_hard :
  forall o printed frontier t, 3 <= domsz o -> given_acts o = [] -> searchit o = Some (printed, frontier) -> In t printed ->
    deterministic (table_protocol (domsz o) t) /\ self_disabling (table_protocol (domsz o) t) /\
    (exists a b c, table_protocol (domsz o) t a b c) /\
    (forall a b c, table_protocol (domsz o) t a b c -> recurs (table_protocol (domsz o) t) a b) /\
    (forall row col, periodic_block (table_protocol (domsz o) t) row col ->
       S (max_period o) < length row \/ S (max_period o) < length col).
Proof.
  intros o p f t M3 G E Ht. destruct (C75_printed_is_printable o p f M3 G E) as [_ H].
  destruct (H t Ht) as ((Ok & Ad & St & Lv & Rc & _) & _).
  split; [apply Ad|]. split; [apply Ad|]. split; [|split; [auto|]].
  - destruct St as [S1|[[_ S1]|(_ & _ & S1)]]; eauto.
  - intros row col HB. destruct (le_lt_dec (length row) (S (max_period o))); [|auto].
    destruct (le_lt_dec (length col) (S (max_period o))); [|auto].
    destruct (livelock_semick_complete (max_period o) t (domsz o) row col) as (r & c & Q); auto. congruence.
Qed.
Print Assumptions C76_printed_is_hard.

(** Nothing is missed: an admissible protocol that has a livelock on some ring,
    but no block within the period limit, contains a printed protocol up to the
    names of the values. *)
Theorem C76_every_hard_livelock_is_covered :
  forall o t N, 3 <= domsz o -> 1 <= max_period o -> given_acts o = [] ->
    max_propagations o <= max_period o -> domsz o * domsz o <= max_depth o ->
    table_ok (domsz o) t -> admissible (nw_disabling o) (table_protocol (domsz o) t) ->
    livelock_on (table_protocol (domsz o) t) (domsz o) N ->
    (forall row col, periodic_block (table_protocol (domsz o) t) row col ->
       S (max_period o) < length row \/ S (max_period o) < length col) ->
    exists printed frontier t' pi, searchit o = Some (printed, frontier) /\ In t' printed /\
      renaming (domsz o) pi /\
      forall a b c, a < domsz o -> b < domsz o -> c < domsz o ->
        table_protocol (domsz o) t' (pi a) (pi b) (pi c) -> table_protocol (domsz o) t a b c.
Proof.
  intros o t N M3 HP G He HD Ok Ad HL HB.
  destruct (cover o t M3 HP He HD Ok Ad (ex_intro _ N HL) HB) as (p & f & t' & pi & E & H).
  exists p, f, t', pi. split; [unfold searchit; rewrite G; auto|auto].
Qed.
Print Assumptions C76_every_hard_livelock_is_covered.

(** So when the run prints nothing, the period limit is enough to find the
    livelocks of all admissible protocols of this size. *)
Theorem C76_empty_output_is_complete :
  forall o frontier t N, 3 <= domsz o -> 1 <= max_period o -> given_acts o = [] ->
    max_propagations o <= max_period o -> domsz o * domsz o <= max_depth o ->
    searchit o = Some ([], frontier) ->
    table_ok (domsz o) t -> admissible (nw_disabling o) (table_protocol (domsz o) t) ->
    livelock_on (table_protocol (domsz o) t) (domsz o) N ->
    exists row col, livelock_semick (max_period o) t (domsz o) = RYes row col.
Proof.
  intros o f t N M3 HP G He HD E Ok Ad HL.
  destruct (livelock_semick (max_period o) t (domsz o)) as [| |row col] eqn:V; [| |eauto]; exfalso;
    destruct (C76_every_hard_livelock_is_covered o t N M3 HP G He HD Ok Ad HL) as (p & f' & t' & pi & E' & Hin & _);
    try (rewrite E in E'; injection E' as <- <-; destruct Hin);
    intros row col HB; (destruct (le_lt_dec (length row) (S (max_period o))); [|auto]);
    (destruct (le_lt_dec (length col) (S (max_period o))); [|auto]);
    destruct (livelock_semick_complete (max_period o) t (domsz o) row col) as (r & c & Q); auto; congruence.
Qed.
Print Assumptions C76_empty_output_is_complete.

(** In particular such a limit decides livelocks, for every self-disabling
    protocol of this size and every ring size. *)
Theorem C76_limit_decides :
  forall M limit frontier, 3 <= M -> 3 <= limit -> searchit (gen_options M limit 1 false []) = Some ([], frontier) ->
  forall t, table_ok M t -> self_disabling (table_protocol M t) ->
    ((exists N, livelock_on (table_protocol M t) M N) <-> exists row col, livelock_semick limit t M = RYes row col).
Proof.
  intros M limit f M3 L3 Hs t Ok SD. split.
  - intros (N & HL).
    assert (D : forall a b c, {table_protocol M t a b c} + {~ table_protocol M t a b c}).
    { intros a b c. destruct (lt_dec a M), (lt_dec b M), (lt_dec c M); try (right; intros (? & ? & ? & ?); lia).
      destruct (Nat.eq_dec (nth (a * M + b) t M) c); [left|right]; rewrite (mi_at M t Ok) by auto; auto. }
    assert (T : forall R : nat -> nat -> Prop, (forall a b, {R a b} + {~ R a b}) -> (forall a b, R a b -> a < M /\ b < M) ->
        {exists a b, R a b} + {forall a b, ~ R a b}).
    { intros R DR HR. destruct (bounded_dec (fun a => exists b, b < M /\ R a b) M) as [H|H].
      - intros a _. apply bounded_dec. auto.
      - left. destruct H as (a & _ & b & _ & H). eauto.
      - right. intros a b Hab. apply H. exists a. split; [apply (HR a b); auto|]. exists b. split; [apply (HR a b); auto|auto]. }
    destruct (T (fun a c => table_protocol M t a a c /\ table_protocol M t c c a)) as [(a & c & H1 & H2)|T1].
    { intros a c. destruct (D a a c), (D c c a); tauto. }
    { intros a c [H1 _]. apply table_protocol_range in H1. tauto. }
    { apply (livelock_semick_complete limit t M [a; c; a] [a; c; a]); [auto| |simpl; lia|simpl; lia].
      exists 2, 2, (fun i j => if Nat.even (i + j) then a else c). split; [lia|]. split; [lia|]. split; [auto|]. split; [auto|].
      split; [intros [|[|[|j]]] Hj; try lia; auto|]. split; [intros [|[|[|j]]] Hj; try lia; auto|].
      intros [|[|i]] [|[|j]] Hi Hj; try lia; simpl; auto. }
    destruct (T (fun a b => table_protocol M t a b a /\ table_protocol M t b a b)) as [(a & b & H1 & H2)|T2].
    { intros a b. destruct (D a b a), (D b a b); tauto. }
    { intros a b [H1 _]. apply table_protocol_range in H1. tauto. }
    { apply (livelock_semick_complete limit t M [a; a] [a; b; a]); [auto| |simpl; lia|simpl; lia].
      exists 2, 1, (fun i j => if Nat.even i then a else b). split; [lia|]. split; [lia|]. split; [auto|]. split; [auto|].
      split; [intros [|[|j]] Hj; try lia; auto|]. split; [intros [|[|[|j]]] Hj; try lia; auto|].
      intros [|[|i]] [|j] Hi Hj; try lia; simpl; auto. }
    apply (C76_empty_output_is_complete (gen_options M limit 1 false []) f t N); cbn [gen_options domsz max_period max_propagations max_depth given_acts nw_disabling]; try lia; auto.
    split; [apply table_det|]. split; [auto|]. split; [auto|]. split; [auto|]. discriminate.
  - intros (row & col & E). apply livelock_semick_yes in E; auto. destruct E as [_ HL].
    destruct (HL 0) as (N & _ & H). eauto.
Qed.
Print Assumptions C76_limit_decides.

(** Three values: limit 3. *)
Theorem C76_three_values_decided :
  forall t, table_ok 3 t -> self_disabling (table_protocol 3 t) ->
    ((exists N, livelock_on (table_protocol 3 t) 3 N) <-> exists row col, livelock_semick 3 t 3 = RYes row col).
Proof. apply (C76_limit_decides 3 3 []); [lia|lia|]. vm_compute. reflexivity. Qed.
Print Assumptions C76_three_values_decided.

(** The hypotheses of the covering theorem are met by a protocol that is not
    printed itself: the third printed protocol of C75_example with the values 0
    and 1 exchanged. *)
Example C76_example :
  let t := [3; 3; 0; 1; 3; 3; 3; 2; 3] in
  table_ok 3 t /\ admissible false (table_protocol 3 t) /\
  (exists N, livelock_on (table_protocol 3 t) 3 N) /\ livelock_semick 2 t 3 = RMay /\
  exists printed, searchit (gen_options 3 2 1 false []) = Some (printed, []) /\ ~ In t printed.
Proof.
  cbv zeta. set (t := [3; 3; 0; 1; 3; 3; 3; 2; 3]).
  assert (Ok : table_ok 3 t) by (split; [reflexivity|unfold t; repeat (constructor; [lia|]); constructor]).
  assert (F : forall a b c, table_protocol 3 t a b c -> (a, b, c) = (0, 2, 0) \/ (a, b, c) = (1, 0, 1) \/ (a, b, c) = (2, 1, 2)).
  { intros a b c (Ha & Hb & Hc & E). destruct a as [|[|[|a]]]; try lia; destruct b as [|[|[|b]]]; try lia; simpl in E;
      injection E as <-; try lia; auto. }
  split; [exact Ok|]. split.
  { split; [apply table_det|]. split.
    - intros a b c d H1 H2. apply F in H1, H2.
      destruct H1 as [H1|[H1|H1]], H2 as [H2|[H2|H2]]; injection H1 as -> -> ->; discriminate.
    - split; [|split; [|discriminate]].
      + intros a c [H1 H2]. apply F in H1, H2. destruct H1 as [H1|[H1|H1]]; injection H1; intros; lia.
      + intros a b [H1 H2]. apply F in H1, H2. destruct H1 as [H1|[H1|H1]], H2 as [H2|[H2|H2]]; injection H1 as -> ->; discriminate. }
  split.
  { assert (E : exists row col, livelock_semick 3 t 3 = RYes row col) by (vm_compute; eauto).
    destruct E as (row & col & E). apply livelock_semick_yes in E; auto. destruct E as [_ H].
    destruct (H 0) as (N & _ & HN). eauto. }
  split; [vm_compute; reflexivity|]. eexists. split; [vm_compute; reflexivity|]. apply table_eqb_false. reflexivity.
Qed.
