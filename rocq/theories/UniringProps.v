(** C74: the checks selected by -uniring. *)
From Coq Require Import List Arith Bool Lia.
From Verif Require Import FinLib Radix FmlaModel FmlaSpec FmlaProofs FmlaProofs2 FmlaProofs4 FmlaProps ReachSpec ReachProofs
  UniringModel UniringSpec UniringProofs UniringProofs3 UniringProofs4 UniringProofs5.
Import ListNotations.

(** ** The cycle check *)

(** It always ends: at most one round per state is made. *)
Theorem C74_cycle_check_answers : forall ds ps assumed, inhabited ds -> Forall (proc_ok ds) ps -> closed_option ds ps assumed ->
  forall fuel ret inv, prod ds < fuel -> exists ans, uniring_cycle_ck ds ps fuel ret inv assumed = Some ans.
Proof. intros ds ps assumed INH OK CL fuel ret inv FU. destruct (check ds INH ps OK assumed CL fuel ret inv FU) as (ans & E & _). eauto. Qed.
Print Assumptions C74_cycle_check_answers.

(** Whatever the processes are, a reported cycle exists: the returned states can be reached from a cycle in the assumed
    set, and none of them is a deadlock. *)
Theorem C74_reported_cycles_exist : forall ds ps assumed, inhabited ds -> Forall (proc_ok ds) ps -> closed_option ds ps assumed ->
  forall fuel ret inv found scc nl, prod ds < fuel ->
  uniring_cycle_ck ds ps fuel ret inv assumed = Some (Cycles found scc nl) ->
  (found = true <-> exists s, ok ds s /\ holds scc s) /\
  forall s, ok ds s -> holds scc s ->
    (exists c, ok ds c /\ in_set assumed c /\ cyclic ds ps c /\ reaches _ (system_step ds ps) c s) /\
    exists t, system_step ds ps s t.
Proof.
  intros ds ps assumed INH OK CL fuel ret inv found scc nl FU E. destruct (check ds INH ps OK assumed CL fuel ret inv FU) as (ans & E' & H).
  rewrite E in E'. injection E' as <-. destruct H as (k & SK & -> & -> & SUB & _).
  assert (SR := result_static ds ps OK assumed CL k). split; [apply (sat_state ds INH _ SR)|]. intros s O HS. split; [apply (result_real ds ps OK assumed CL k SK s O HS)|].
  apply (enabled_step ds ps s O), (xpre_enabled ds ps OK s O). apply (proj1 (subset_state ds INH _ _ SR (xpre_static ds ps OK)) SUB s O HS).
Qed.
Print Assumptions C74_reported_cycles_exist.

(** In a unidirectional ring of self-disabling processes, listed in the direction in which values travel, no cycle is
    missed: a cycle is reported if and only if there is one, and the returned states lie in a closed set if and only
    if all cycles do. *)
Theorem C74_ring_exact : forall ds ps assumed, inhabited ds -> Forall (proc_ok ds) ps -> closed_option ds ps assumed ->
  ring ds ps -> self_disabling ds ps ->
  forall fuel ret inv found scc nl, prod ds < fuel ->
  uniring_cycle_ck ds ps fuel ret inv assumed = Some (Cycles found scc nl) ->
  (found = true <-> exists s, ok ds s /\ in_set assumed s /\ cyclic ds ps s) /\
  forall I, closed_set ds ps I ->
    (subseteq_ck ds scc I = true <-> forall s, ok ds s -> in_set assumed s -> cyclic ds ps s -> holds I s).
Proof.
  intros ds ps assumed INH OK CL RG SD fuel ret inv found scc nl FU E. destruct (check ds INH ps OK assumed CL fuel ret inv FU) as (ans & E' & H).
  rewrite E in E'. injection E' as <-. destruct H as (k & SK & -> & -> & _).
  split; [apply (ring_found ds INH ps OK RG SD assumed CL k SK)|]. intros I (SI & CI).
  rewrite (subset_state ds INH _ _ (result_static ds ps OK assumed CL k) SI).
  apply (ring_result ds ps OK RG SD assumed CL k SK (holds I)). exact CI.
Qed.
Print Assumptions C74_ring_exact.

(** So for such a ring the two tests that the verification makes with the result (stabilization.cc:330-341, 369) hold
    if and only if every execution from the assumed states ends up in the invariant for good. *)
Theorem C74_ring_verdict : forall ds ps A I, inhabited ds -> Forall (proc_ok ds) ps -> closed_set ds ps A -> closed_set ds ps I ->
  ring ds ps -> self_disabling ds ps ->
  forall fuel ret inv found scc nl, prod ds < fuel ->
  uniring_cycle_ck ds ps fuel ret inv (Some A) = Some (Cycles found scc nl) ->
  (subseteq_ck ds (nimp_PFmla A I) (xpre ds ps) = true /\ subseteq_ck ds scc I = true <->
   converges _ (system_step ds ps) (fun s => ok ds s /\ holds A s) (holds I)).
Proof.
  intros ds ps A I INH OK CA CI RG SD fuel ret inv found scc nl FU E.
  destruct (C74_ring_exact ds ps (Some A) INH OK CA RG SD fuel ret inv found scc nl FU E) as (_ & H).
  rewrite (H I CI), (converges_iff ds ps OK A I CA CI). cbn [in_set].
  assert (SX : state_fmla ds (nimp_PFmla A I)) by (apply nimp_static; [apply CA|apply CI]).
  rewrite (subset_state ds INH _ _ SX (xpre_static ds ps OK)).
  assert (G : (forall s, ok ds s -> holds (nimp_PFmla A I) s -> holds (xpre ds ps) s) <->
    (forall s, ok ds s -> holds A s -> ~ holds I s -> exists t, system_step ds ps s t)); [|tauto]. split.
  - intros K s O HA NI. apply (enabled_step ds ps s O), (xpre_enabled ds ps OK s O), K; auto. apply holds_nimp; auto.
  - intros K s O HX. apply holds_nimp in HX. apply (xpre_enabled ds ps OK s O), (enabled_step ds ps s O). apply K; tauto.
Qed.
Print Assumptions C74_ring_verdict.

(** If no process ever has a choice, the program is not stopped by its own Claim. *)
Theorem C74_deterministic_goes_on : forall ds ps assumed, inhabited ds -> Forall (proc_ok ds) ps -> closed_option ds ps assumed ->
  deterministic ds ps -> forall fuel ret inv, prod ds < fuel -> uniring_cycle_ck ds ps fuel ret inv assumed <> Some Stopped.
Proof.
  intros ds ps assumed INH OK CL DT fuel ret inv FU E. destruct (check ds INH ps OK assumed CL fuel ret inv FU) as (ans & E' & H).
  rewrite E in E'. injection E' as <-. destruct H as (k & SK & SUB). rewrite (det_subset ds INH ps OK assumed CL DT k SK) in SUB. discriminate.
Qed.
Print Assumptions C74_deterministic_goes_on.

(** The number of layers counts rounds of turns: one more than the number of rounds after which the set of possible
    states no longer changes, or lies in the invariant; a positive limit stops the check only if more are needed. *)
Theorem C74_layers_count_rounds : forall ds ps assumed, inhabited ds -> Forall (proc_ok ds) ps -> closed_option ds ps assumed ->
  forall fuel limit inv ans, prod ds < fuel -> (match inv with Some i => state_fmla ds i | None => True end) ->
  uniring_cycle_ck ds ps fuel (Some limit) inv assumed = Some ans ->
  let done k := settled _ (round ds ps) (starting ds ps assumed) (match inv with Some i => Some (holds i) | None => None end) k in
  match ans with
  | Layers n => 0 < limit /\ n = limit + 1 /\ forall k, k < limit -> ~ done k
  | Stopped => True
  | Cycles _ _ nl => exists m, nl = Some (m + 1) /\ done m /\ (forall k, k < m -> ~ done k) /\ (limit = 0 \/ m + 1 <= limit)
  end.
Proof.
  intros ds ps assumed INH OK CL fuel limit inv ans FU SI E. destruct (check ds INH ps OK assumed CL fuel (Some limit) inv FU) as (ans' & E' & H).
  rewrite E in E'. injection E' as <-. pose proof (stops_settled ds INH ps OK assumed CL inv SI) as SS. unfold inv_set in SS. cbv zeta.
  destruct ans as [n| |found scc nl]; auto.
  - destruct H as (lim & EL & P & N & B). injection EL as <-. split; [auto|]. split; [auto|]. intros k K D. apply SS in D. apply (B k K D).
  - destruct H as (k & _ & _ & _ & _ & m & -> & S & B & L). exists m. split; [auto|]. split; [apply SS; auto|]. split; [|auto]. intros i I D. apply SS in D. apply (B i I D).
Qed.
Print Assumptions C74_layers_count_rounds.

(** ** The reachability check *)

(** With self-disabling processes it looks no further than for deadlocks, and counts at most two layers. *)
Theorem C74_weak_check_sees_deadlocks_only : forall ds ps inv assumed, inhabited ds -> Forall (proc_ok ds) ps -> ps <> [] -> self_disabling ds ps ->
  state_fmla ds inv -> state_fmla ds assumed -> forall fuel, 2 <= fuel ->
  exists answer n, uniring_weak_convergence_ck ds ps fuel inv assumed = Some (answer, n) /\
  (answer = true <-> forall s, ok ds s -> holds assumed s -> ~ holds inv s -> exists t, system_step ds ps s t) /\ 1 <= n <= 2.
Proof. intros ds ps inv assumed INH OK NE SD SI SA fuel FU. apply (weak_answer ds INH ps OK SD inv assumed SI SA NE fuel FU). Qed.
Print Assumptions C74_weak_check_sees_deadlocks_only.

(** ** Concrete rings *)

(** Process i sets its variable to one of the values that g gives for the value of variable [q i] and its own. *)
Definition table (ds : list nat) (q : nat -> nat) (g : nat -> nat -> list nat) (i : nat) : proc :=
  mkProc [i] (Mdd (fun e => existsb (Nat.eqb (nth (img_id i) e 0)) (g (nth (pre_id (q i)) e 0) (nth (pre_id i) e 0)))) (mask_xn ds [i]).
Definition tables (ds : list nat) (q : nat -> nat) (g : nat -> nat -> list nat) : list proc := map (table ds q g) (seq 0 (length ds)).

Section Table.
Variable ds : list nat.
Variable q : nat -> nat.
Variable g : nat -> nat -> list nat.
Hypothesis Q : forall i, i < length ds -> q i < length ds.
Lemma table_eval : forall i a t s, i < length ds -> ok ds a -> ok ds t -> ok ds s ->
  eval (xn (table ds q g i)) (join a t s) = existsb (Nat.eqb (nth i t 0)) (g (nth (q i) s 0) (nth i s 0)).
Proof.
  intros i a t s I A T S. cbn [xn table eval]. pose proof (okl ds a A). pose proof (okl ds t T). pose proof (okl ds s S). pose proof (Q i I).
  destruct (nth_join a t s i) as (-> & ->); try lia. destruct (nth_join a t s (q i)) as (-> & _); try lia. auto.
Qed.
Lemma table_ok : forall i, i < length ds -> proc_ok ds (table ds q g i).
Proof.
  intros i I. assert (W : wf_ids ds [i]) by (constructor; [auto|constructor]). split; [exact W|]. split; [|split].
  - intros a a' t s A A' T S. unfold meaning. rewrite !table_eval by auto. tauto.
  - intros a t t' s A T T' S E. unfold meaning. rewrite !table_eval by auto. rewrite (E i) by (left; auto). tauto.
  - cbn [mask table wvbls]. intros a t s A T S. apply mask_meaning; auto.
Qed.
Lemma tables_ok : Forall (proc_ok ds) (tables ds q g).
Proof. apply Forall_forall. intros p P. apply in_map_iff in P. destruct P as (i & <- & I). apply in_seq in I. apply table_ok. lia. Qed.
Lemma tables_nth : forall i p, nth_error (tables ds q g) i = Some p -> i < length ds /\ p = table ds q g i.
Proof.
  intros i p E. assert (I : i < length ds).
  { assert (H : nth_error (tables ds q g) i <> None) by congruence. apply nth_error_Some in H. unfold tables in H. rewrite map_length, seq_length in H. auto. }
  split; auto. unfold tables in E. rewrite (map_nth_error (table ds q g) i (seq 0 (length ds)) (d := i)) in E; [congruence|].
  rewrite (nth_error_nth' _ 0) by (rewrite seq_length; auto). rewrite seq_nth; auto.
Qed.
Lemma table_reads : forall i s t s' t', i < length ds -> ok ds s -> ok ds t -> ok ds s' -> ok ds t' ->
    nth i s 0 = nth i s' 0 -> nth (q i) s 0 = nth (q i) s' 0 -> nth i t 0 = nth i t' 0 ->
    agree_off ds [i] s' t' -> proc_step ds (table ds q g i) s t -> proc_step ds (table ds q g i) s' t'.
Proof.
  intros i s t s' t' I S T S' T' E1 E2 E3 A (H & _). split; [|exact A]. unfold FmlaSpec.steps, meaning in *. rewrite table_eval in H by auto. rewrite table_eval by auto. rewrite <- E1, <- E2, <- E3. exact H.
Qed.
Lemma tables_mdd : forall p, In p (tables ds q g) -> exists f, xn p = Mdd f.
Proof. intros p P. apply in_map_iff in P. destruct P as (i & <- & _). eexists. reflexivity. Qed.
End Table.
Lemma before_lt : forall ds i, i < length ds -> before ds i < length ds.
Proof. intros ds i I. unfold before. destruct i; lia. Qed.
Lemma after_lt : forall ds i, i < length ds -> after ds i < length ds.
Proof. intros ds i I. unfold after. destruct (S i =? length ds) eqn:E; [lia|apply Nat.eqb_neq in E; lia]. Qed.
Lemma tables_ring : forall ds g, ring ds (tables ds (before ds) g).
Proof.
  intros ds g. split; [unfold tables; rewrite map_length, seq_length; auto|]. intros i p E. apply tables_nth in E. destruct E as (I & ->).
  split; [auto|]. intros s t s' t'. intros. apply (table_reads ds (before ds) g (before_lt ds) i s t); auto.
Qed.
Lemma tables_turned : forall ds g, turned_ring ds (tables ds (after ds) g).
Proof.
  intros ds g. split; [unfold tables; rewrite map_length, seq_length; auto|]. intros i p E. apply tables_nth in E. destruct E as (I & ->).
  split; [auto|]. intros s t s' t'. intros. apply (table_reads ds (after ds) g (after_lt ds) i s t); auto.
Qed.
Lemma sd_dec : forall ds ps, forallb (fun p => forallb (fun s => forallb (fun t => negb (stepb ds p s t) || negb (acts ds p t)) (all ds)) (all ds)) ps = true ->
  self_disabling ds ps.
Proof.
  intros ds ps H p s t P S T ST C. rewrite forallb_forall in H. specialize (H p P). rewrite forallb_forall in H. apply all_ok in S, T. specialize (H s S).
  rewrite forallb_forall in H. specialize (H t T). apply (stepb_step ds) in ST. apply (acts_can ds) in C. rewrite ST, C in H. discriminate.
Qed.
Lemma det_dec : forall ds ps, forallb (fun p => forallb (fun s => forallb (fun t => forallb (fun u =>
  negb (stepb ds p s t && stepb ds p s u) || mem t [u]) (all ds)) (all ds)) (all ds)) ps = true -> deterministic ds ps.
Proof.
  intros ds ps H p s t u P S T U ST SU. rewrite forallb_forall in H. specialize (H p P). rewrite forallb_forall in H. apply all_ok in S, T, U. specialize (H s S).
  rewrite forallb_forall in H. specialize (H t T). rewrite forallb_forall in H. specialize (H u U). apply (stepb_step ds) in ST, SU. rewrite ST, SU in H. cbn [andb negb orb] in H.
  apply mem_in in H. destruct H as [H|[]]. auto.
Qed.
(** A list of states, each a step from the one before, back to the start *)
Fixpoint walk (ds : list nat) (ps : list proc) (s : list nat) (l : list (list nat)) : bool :=
  match l with [] => true | t :: l' => mem s (all ds) && mem t (all ds) && existsb (fun p => stepb ds p s t) ps && walk ds ps t l' end.
Lemma walk_steps : forall ds ps l s, walk ds ps s l = true -> steps _ (system_step ds ps) (length l) s (last l s).
Proof.
  intros ds ps. induction l as [|t l IH]; intros s H; [apply steps_0; auto|]. cbn [walk] in H. rewrite !andb_true_iff, !mem_in, !all_ok in H.
  destruct H as (((S & T) & E) & W). cbn [length]. apply steps_S. exists t. split.
  - split; [auto|]. split; [auto|]. apply existsb_exists in E. destruct E as (p & P & E). exists p. split; auto. apply (stepb_step ds). auto.
  - replace (last (t :: l) s) with (last l t); [apply IH; auto|]. clear. destruct l as [|u l]; auto. revert t u. induction l as [|v l IH]; intros t u; auto. apply IH.
Qed.
Lemma walk_cyclic : forall ds ps s l, l <> [] -> last l s = s -> walk ds ps s l = true -> cyclic ds ps s.
Proof. intros ds ps s l NE L W. apply walk_steps in W. rewrite L in W. destruct l as [|t l]; [congruence|]. exists (length l). exact W. Qed.

Definition B3 := [2; 2; 2].
Definition T2 := [3; 3].
Definition B2 := [2; 2].
Lemma inh_B3 : inhabited B3. Proof. repeat constructor. Qed.
Lemma inh_T2 : inhabited T2. Proof. repeat constructor. Qed.
Lemma inh_B2 : inhabited B2. Proof. repeat constructor. Qed.

(** Every process copies the value of its predecessor: the ring of three has a cycle, and it is found. *)
Definition copy (a b : nat) : list nat := if a =? b then [] else [a].
Definition copying : list proc := tables B3 (before B3) copy.
Example C74_example : inhabited B3 /\ Forall (proc_ok B3) copying /\ ring B3 copying /\ self_disabling B3 copying /\ deterministic B3 copying /\
  closed_option B3 copying None /\ cyclic B3 copying [0; 0; 1] /\
  exists scc, uniring_cycle_ck B3 copying 9 None None None = Some (Cycles true scc None).
Proof.
  split; [apply inh_B3|]. assert (OK : Forall (proc_ok B3) copying) by (apply tables_ok; apply before_lt). split; [exact OK|].
  split; [apply tables_ring|]. split; [apply sd_dec; vm_compute; reflexivity|]. split; [apply det_dec; vm_compute; reflexivity|]. split; [exact I|].
  split; [apply (walk_cyclic _ _ _ [[1; 0; 1]; [1; 0; 0]; [1; 1; 0]; [0; 1; 0]; [0; 1; 1]; [0; 0; 1]]); [discriminate|reflexivity|vm_compute; reflexivity]|].
  destruct (evaluated B3 inh_B3 copying OK 3 ltac:(vm_compute; reflexivity) 9 None ltac:(cbn; lia)) as (H & _).
  apply H. vm_compute. reflexivity.
Qed.

(** The direction matters: if every process copies its successor, the cycle is missed. *)
Definition copying_back : list proc := tables B3 (after B3) copy.
Theorem C74_turned_ring_refuted : exists ds ps s,
  inhabited ds /\ Forall (proc_ok ds) ps /\ turned_ring ds ps /\ self_disabling ds ps /\ deterministic ds ps /\ ok ds s /\ cyclic ds ps s /\
  forall fuel inv, prod ds < fuel -> exists scc, uniring_cycle_ck ds ps fuel None inv None = Some (Cycles false scc None).
Proof.
  exists B3, copying_back, [0; 0; 1]. split; [apply inh_B3|]. assert (OK : Forall (proc_ok B3) copying_back) by (apply tables_ok; apply after_lt). split; [exact OK|].
  split; [apply tables_turned|]. split; [apply sd_dec; vm_compute; reflexivity|]. split; [apply det_dec; vm_compute; reflexivity|]. split; [apply all_ok; vm_compute; tauto|].
  split; [apply (walk_cyclic _ _ _ [[0; 1; 1]; [0; 1; 0]; [1; 1; 0]; [1; 0; 0]; [1; 0; 1]; [0; 0; 1]]); [discriminate|reflexivity|vm_compute; reflexivity]|].
  intros fuel inv FU. destruct (evaluated B3 inh_B3 copying_back OK 2 ltac:(vm_compute; reflexivity) fuel inv FU) as (H & _).
  apply H. vm_compute. reflexivity.
Qed.
Print Assumptions C74_turned_ring_refuted.

(** Processes that can act twice in a row: a cycle is missed although the direction is right. *)
Definition eager (a b : nat) : list nat := match a, b with 0, 1 => [0] | 1, 0 => [1] | 1, 1 => [0] | _, _ => [] end.
Theorem C74_not_self_disabling_refuted : exists ds ps s,
  inhabited ds /\ Forall (proc_ok ds) ps /\ ring ds ps /\ deterministic ds ps /\ ok ds s /\ cyclic ds ps s /\
  forall fuel inv, prod ds < fuel -> exists scc, uniring_cycle_ck ds ps fuel None inv None = Some (Cycles false scc None).
Proof.
  set (ps := tables B2 (before B2) eager).
  exists B2, ps, [1; 1]. split; [apply inh_B2|]. assert (OK : Forall (proc_ok B2) ps) by (apply tables_ok; apply before_lt). split; [exact OK|].
  split; [apply tables_ring|]. split; [apply det_dec; vm_compute; reflexivity|]. split; [apply all_ok; vm_compute; tauto|].
  split; [apply (walk_cyclic _ _ _ [[0; 1]; [1; 1]]); [discriminate|reflexivity|vm_compute; reflexivity]|].
  intros fuel inv FU. destruct (evaluated B2 inh_B2 ps OK 3 ltac:(vm_compute; reflexivity) fuel inv FU) as (H & _).
  apply H. vm_compute. reflexivity.
Qed.
Print Assumptions C74_not_self_disabling_refuted.

(** Processes with a choice: the program stops at its own Claim. *)
Definition choosing (a b : nat) : list nat := match a, b with 0, 2 => [0; 1] | 1, 0 => [1; 2] | 2, 1 => [0; 2] | _, _ => [] end.
Theorem C74_choice_refuted : exists ds ps, inhabited ds /\ Forall (proc_ok ds) ps /\ ring ds ps /\ self_disabling ds ps /\
  forall fuel inv, prod ds < fuel -> uniring_cycle_ck ds ps fuel None inv None = Some Stopped.
Proof.
  set (ps := tables T2 (before T2) choosing).
  exists T2, ps. split; [apply inh_T2|]. assert (OK : Forall (proc_ok T2) ps) by (apply tables_ok; apply before_lt). split; [exact OK|].
  split; [apply tables_ring|]. split; [apply sd_dec; vm_compute; reflexivity|].
  intros fuel inv FU. destruct (evaluated T2 inh_T2 ps OK 4 ltac:(vm_compute; reflexivity) fuel inv FU) as (_ & H).
  apply H. vm_compute. reflexivity.
Qed.
Print Assumptions C74_choice_refuted.

(** The reachability check and weak convergence: from every assumed state the invariant can be reached. *)
Definition weakly_convergent (ds : list nat) (ps : list proc) (inv assumed : fmla) : Prop :=
  forall s, ok ds s -> holds assumed s -> exists t, ok ds t /\ holds inv t /\ reaches _ (system_step ds ps) s t.
Lemma weakly_dec : forall ds ps k L, incl L (all ds) -> forallb (fun s => mem s (Nat.iter k (tpre ds ps) L)) (all ds) = true ->
  weakly_convergent ds ps (listed ds L) (Cst true).
Proof.
  intros ds ps k L IN H s O _. rewrite forallb_forall in H. apply (all_ok ds) in O. specialize (H s O). apply mem_in in H.
  destruct (tpre_reaches ds ps L IN k s H) as (_ & t & T & R). exists t. assert (OT : ok ds t) by (apply all_ok, IN; auto). split; [auto|]. split; [|exact R].
  apply (listed_is ds L); auto.
Qed.
Lemma true_is : forall ds, is ds (Cst true) (all ds).
Proof. intros ds. split; [apply cst_static|]. intros s O. split; [intros _; apply all_ok; auto|intros _; reflexivity]. Qed.

(** It accepts a ring of self-disabling processes that never reaches the invariant from some state ... *)
Definition chase (i a b : nat) : list nat :=
  if a =? 2 then (if b =? 2 then [] else [2]) else if b =? 2 then [] else
  if i =? 0 then (if a =? b then [1 - b] else []) else if a =? b then [] else [a].
Definition chasers : list proc := map (fun i => table T2 (before T2) (chase i) i) [0; 1].
Theorem C74_weak_check_accepts_refuted : exists ds ps inv,
  inhabited ds /\ Forall (proc_ok ds) ps /\ ring ds ps /\ self_disabling ds ps /\ closed_set ds ps inv /\
  ~ weakly_convergent ds ps inv (Cst true) /\
  forall fuel, 2 <= fuel -> exists n, uniring_weak_convergence_ck ds ps fuel inv (Cst true) = Some (true, n).
Proof.
  exists T2, chasers, (listed T2 [[2; 2]]). split; [apply inh_T2|].
  assert (OK : Forall (proc_ok T2) chasers) by (constructor; [apply table_ok; [apply before_lt|cbn; lia]|constructor; [apply table_ok; [apply before_lt|cbn; lia]|constructor]]).
  assert (SD : self_disabling T2 chasers) by (apply sd_dec; vm_compute; reflexivity).
  split; [exact OK|]. split.
  { split; [reflexivity|]. intros i p E. assert (I : i < 2 /\ p = table T2 (before T2) (chase i) i).
    { destruct i as [|[|i]]; cbn in E; [injection E as <-; auto|injection E as <-; auto|destruct i; discriminate]. }
    destruct I as (I & ->). split; [reflexivity|]. intros s t s' t'. intros. apply (table_reads T2 (before T2) (chase i) (before_lt T2) i s t); auto. }
  split; [exact SD|]. split; [apply listed_closed; [intros s [<-|[]]; vm_compute; tauto|vm_compute; reflexivity]|]. split.
  - intros W. destruct (W [0; 0]) as (t & O & H & R); [apply all_ok; vm_compute; tauto|reflexivity|].
    apply (listed_is T2) in H; auto. destruct H as [<-|[]].
    pose proof (tclosed T2 chasers [[0; 0]; [0; 1]; [1; 0]; [1; 1]] ltac:(vm_compute; reflexivity)) as C.
    pose proof (closed_reaches _ _ _ C [0; 0] [2; 2] ltac:(left; auto) R) as K. cbn in K. intuition discriminate.
  - intros fuel FU.
    destruct (C74_weak_check_sees_deadlocks_only T2 chasers (listed T2 [[2; 2]]) (Cst true) inh_T2 OK ltac:(discriminate) SD (proj1 (listed_is T2 _)) (cst_static T2 true) fuel FU) as (b & n & E & (_ & H) & _).
    exists n. rewrite E. f_equal. f_equal. apply H. intros s O _ NI. apply (enabled_step T2 chasers s O), (able_enabled T2).
    apply (all_ok T2) in O. assert (K : forallb (fun s => mem s [[2; 2]] || able T2 chasers s) (all T2) = true) by (vm_compute; reflexivity).
    rewrite forallb_forall in K. specialize (K s O). apply orb_true_iff in K. destruct K as [K|K]; auto. destruct NI. apply (listed_is T2); [apply all_ok; auto|apply mem_in; auto].
Qed.
Print Assumptions C74_weak_check_accepts_refuted.

(** ... rejects a ring that always can reach it ... *)
Definition rejected (a b : nat) : list nat :=
  match a, b with 0, 1 => [0; 2] | 0, 2 => [1] | 1, 0 => [1] | 1, 1 => [2] | 2, 1 => [0; 2] | 2, 2 => [0; 1] | _, _ => [] end.
Theorem C74_weak_check_rejects_refuted : exists ds ps inv,
  inhabited ds /\ Forall (proc_ok ds) ps /\ ring ds ps /\ closed_set ds ps inv /\ weakly_convergent ds ps inv (Cst true) /\
  exists fuel0, forall fuel, fuel0 <= fuel -> exists n, uniring_weak_convergence_ck ds ps fuel inv (Cst true) = Some (false, n).
Proof.
  set (ps := tables T2 (before T2) rejected). exists T2, ps, (listed T2 [[0; 0]]). split; [apply inh_T2|].
  assert (OK : Forall (proc_ok T2) ps) by (apply tables_ok; apply before_lt). split; [exact OK|]. split; [apply tables_ring|].
  assert (IN : incl [[0; 0]] (all T2)) by (intros s [<-|[]]; vm_compute; tauto).
  split; [apply listed_closed; [exact IN|vm_compute; reflexivity]|]. split; [apply (weakly_dec T2 ps 9); [exact IN|vm_compute; reflexivity]|].
  exists 12. intros fuel FU.
  pose proof (weak_is T2 inh_T2 ps OK (listed T2 [[0; 0]]) [[0; 0]] (listed_is T2 _) (tables_mdd _ _ _) (Cst true) (all T2) (true_is T2) fuel ltac:(vm_compute; reflexivity)) as H.
  assert (E : tloop T2 ps [[0; 0]] fuel (tfirst T2 ps [[0; 0]] (all T2)) = Some false).
  { do 12 (destruct fuel as [|fuel]; [lia|]). vm_compute. reflexivity. }
  rewrite E in H. destruct (uniring_weak_convergence_ck _ _ _ _ _) as [(b & n)|]; [|discriminate]. injection H as <-. eauto.
Qed.
Print Assumptions C74_weak_check_rejects_refuted.

(** ... and never ends for another one. *)
Definition endless (a b : nat) : list nat :=
  match a, b with 0, 0 => [1] | 0, 1 => [0; 2] | 0, 2 => [1] | 1, 1 => [0] | 1, 2 => [1] | 2, 0 => [1] | 2, 1 => [2] | _, _ => [] end.
Theorem C74_weak_check_never_ends_refuted : exists ds ps inv,
  inhabited ds /\ Forall (proc_ok ds) ps /\ ring ds ps /\ closed_set ds ps inv /\ weakly_convergent ds ps inv (Cst true) /\
  forall fuel, uniring_weak_convergence_ck ds ps fuel inv (Cst true) = None.
Proof.
  set (ps := tables T2 (before T2) endless). exists T2, ps, (listed T2 [[2; 2]]). split; [apply inh_T2|].
  assert (OK : Forall (proc_ok T2) ps) by (apply tables_ok; apply before_lt). split; [exact OK|]. split; [apply tables_ring|].
  assert (IN : incl [[2; 2]] (all T2)) by (intros s [<-|[]]; vm_compute; tauto).
  split; [apply listed_closed; [exact IN|vm_compute; reflexivity]|]. split; [apply (weakly_dec T2 ps 9); [exact IN|vm_compute; reflexivity]|].
  intros fuel.
  pose proof (weak_is T2 inh_T2 ps OK (listed T2 [[2; 2]]) [[2; 2]] (listed_is T2 _) (tables_mdd _ _ _) (Cst true) (all T2) (true_is T2) fuel ltac:(vm_compute; reflexivity)) as H.
  assert (S1 : tback_sweep T2 [[2; 2]] (rev ps) [[1; 0]] = ([[2; 1]], false)) by (vm_compute; reflexivity).
  assert (S2 : tback_sweep T2 [[2; 2]] (rev ps) [[2; 1]] = ([[1; 0]], false)) by (vm_compute; reflexivity).
  assert (S0 : tback_sweep T2 [[2; 2]] (rev ps) (tfirst T2 ps [[2; 2]] (all T2)) = ([[1; 0]], false)) by (vm_compute; reflexivity).
  assert (L : forall f, tloop T2 ps [[2; 2]] f [[1; 0]] = None /\ tloop T2 ps [[2; 2]] f [[2; 1]] = None).
  { induction f as [|f (L1 & L2)]; [split; reflexivity|]. cbn [tloop]. rewrite S1, S2, L1, L2. split; vm_compute; reflexivity. }
  assert (E : tloop T2 ps [[2; 2]] fuel (tfirst T2 ps [[2; 2]] (all T2)) = None).
  { destruct fuel as [|f]; [reflexivity|]. cbn [tloop]. rewrite S0. destruct (L f) as (L1 & _). rewrite L1. vm_compute. reflexivity. }
  rewrite E in H. destruct (uniring_weak_convergence_ck _ _ _ _ _) as [(b & n)|]; [discriminate|reflexivity].
Qed.
Print Assumptions C74_weak_check_never_ends_refuted.
