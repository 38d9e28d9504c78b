(** C35, C36 and C51-C54: what the stabilization check establishes, for every
    finite system, every set of options and every schedule. *)
From Coq Require Import List Arith Bool Lia.
From Verif Require Import FinLib Sample ReachModel ReachSpec ReachProofs StabModel StabSpec
  StabProofs StabProofs2 StabProofs3 StabProofs4.
Import ListNotations ReachSpec.

(** A set or relation given by a boolean function, as a proposition. *)
Notation holds p := (fun x => p x = true).
Notation moves r := (fun x y => r x y = true).

(** What the check is applied to: [univ] lists the states; [lo] are the
    transitions that will be there and [hi] those that may still be added (the
    same relation when a finished protocol is verified); agreeing on the shadow
    variables is an equivalence; the processes of a randomised protocol have
    the transitions of [lo] between them.  Any fuel above the number of states
    is enough. *)
Record inputs (St : Type) (univ : list St) (fuel : nat) (s : sys St)
  (pcs : list (St -> St -> bool)) (lo : St -> St -> bool) : Prop := {
  all_states : forall x, In x univ;
  enough : length univ < fuel;
  shadow_equiv : is_equivalence St (moves (same_shadow St s));
  processes : probabilistic St s = true ->
    forall x y, lo x y = true <-> exists pc, In pc pcs /\ pc x y = true
}.
Arguments all_states {_ _ _ _ _ _}.
Arguments enough {_ _ _ _ _ _}.
Arguments shadow_equiv {_ _ _ _ _ _}.
Arguments processes {_ _ _ _ _ _}.

(** The states in which the system should end up. *)
Definition legit {St} (s : sys St) (x : St) : Prop := invariant St s x = true /\ closed_assume St s x = true.
(** No shadow or puppet variables and no "future & future" invariant. *)
Definition plain {St} (s : sys St) : Prop := shadow_puppet St s = false /\ scope St s <> FutureInvariant.

Ltac unpack Hin :=
  destruct Hin as [Hall Hf (same_refl & same_sym & same_trans) Hpcs].

(** * C35 *)
(** The check always gives an answer. *)
Theorem C35_always_answers :
  forall St (eq_dec : forall x y : St, {x = y} + {x <> y}) univ fuel s opt pcs lo hi,
  inputs St univ fuel s pcs lo ->
  exists v, stabilization_ck St eq_dec univ fuel s opt pcs lo hi = Some v /\ v <> Aborted St.
Proof.
  intros St eq_dec univ fuel s opt pcs lo hi Hin. unpack Hin.
  destruct (stab_spec St eq_dec univ Hall fuel Hf s opt pcs lo hi same_refl same_sym same_trans Hpcs) as (v & E & Hv).
  exists v. split; [exact E|]. intros ->. exact Hv.
Qed.
Print Assumptions C35_always_answers.

(** An accepted protocol stabilises: every execution from the assumed states
    ends up in the returned states [H] for good, within as many steps as there
    are states; [H] is made of legitimate states, all of them unless the
    invariant is only to be met in the future or on the shadow variables. *)
Theorem C35_accepted_stabilises :
  forall St (eq_dec : forall x y : St, {x = y} + {x <> y}) univ fuel s opt pcs lo hi,
  inputs St univ fuel s pcs lo ->
  forall H n m, probabilistic St s = false -> (forall x y, lo x y = hi x y) ->
  stabilization_ck St eq_dec univ fuel s opt pcs lo hi = Some (Accepted St H n m) ->
  (forall x, H x = true -> legit s x) /\
  (plain s \/ scope St s = DirectInvariant -> forall x, legit s x -> H x = true) /\
  (exists x, H x = true) /\
  closed St (moves lo) (holds (closed_assume St s)) /\
  closed St (moves lo) (holds H) /\
  converges St (moves lo) (holds (closed_assume St s)) (holds H) /\
  (forall f k, closed_assume St s (f 0) = true -> run St (moves lo) f k -> length univ <= k -> H (f k) = true) /\
  (forall x, closed_assume St s x = true -> deadlocked St (moves lo) x -> H x = true) /\
  (behav St s = FutureSilent -> forall x, closed_assume St s x = true -> ~ on_cycle St (moves lo) x).
Proof.
  intros St eq_dec univ fuel s opt pcs lo hi Hin H n m Hp Heq Hc. unpack Hin.
  destruct (accepted_np St eq_dec univ Hall fuel Hf s opt pcs lo hi same_refl same_sym same_trans Hpcs H n m Hp Hc)
    as (core & (B1 & B2 & (x0 & B3) & B4 & B5 & B6 & B7 & B8) & _ & Hcv & Hs).
  destruct (Hcv Heq) as ((Hc1 & Hc2) & Hc3).
  repeat (split; [first [exact B2|exact B8|exact B4|exact B6|exists x0; auto|
    split; [intros f F0 Fr; destruct (Hc1 f F0 Fr) as (k & Hk); exists k; auto|intros f k F0 Fr Fd; eauto]|
    intros f k F0 Fr Fk; eauto|
    intros x Hx Hd; apply B1; apply (Hc2 (fun _ => x) 0); auto; intros i Hi; lia]|]).
  exact Hs.
Qed.
Print Assumptions C35_accepted_stabilises.

(** While a protocol is being completed ([lo] fixed, [hi] still possible),
    acceptance means that no cycle of the fixed transitions leaves the
    returned states and that from every assumed state the possible
    transitions lead there. *)
Theorem C35_accepted_candidates :
  forall St (eq_dec : forall x y : St, {x = y} + {x <> y}) univ fuel s opt pcs lo hi,
  inputs St univ fuel s pcs lo ->
  forall H n m, probabilistic St s = false -> (exists x y, lo x y <> hi x y) ->
  stabilization_ck St eq_dec univ fuel s opt pcs lo hi = Some (Accepted St H n m) ->
  (forall x, H x = true -> legit s x) /\
  closed St (moves lo) (holds (closed_assume St s)) /\
  closed St (moves lo) (holds H) /\
  (forall x, closed_assume St s x = true -> on_cycle St (moves lo) x -> H x = true) /\
  (forall x, closed_assume St s x = true -> H x = false -> exists y, hi x y = true) /\
  (forall x, closed_assume St s x = true ->
     exists j, near St (moves hi) (holds (closed_assume St s)) (holds H) j x).
Proof.
  intros St eq_dec univ fuel s opt pcs lo hi Hin H n m Hp Hne Hc. unpack Hin.
  destruct (accepted_np St eq_dec univ Hall fuel Hf s opt pcs lo hi same_refl same_sym same_trans Hpcs H n m Hp Hc)
    as (core & (B1 & B2 & B3 & B4 & B5 & B6 & B7 & B8) & Hcy & _ & _).
  pose proof (verdict_known St eq_dec univ Hall fuel Hf s opt pcs lo hi same_refl same_sym same_trans Hpcs _ Hc) as Hv.
  cbn [verdict_ok] in Hv. destruct Hv as (_ & _ & _ & _ & scc & core' & nl & rn & _ & _ & _ & _ & _ & H6 & (H7 & _) & _).
  repeat (split; [first [exact B2|exact B4|exact B6|exact H6|intros x Hx Hx'; apply B1; auto]|]).
  apply H7; auto.
Qed.
Print Assumptions C35_accepted_candidates.

(** Without shadow variables the check is exact: it accepts the protocols that
    have the property and no others (no bound on the number of layers set). *)
Theorem C35_accepts_exactly :
  forall St (eq_dec : forall x y : St, {x = y} + {x <> y}) univ fuel s opt pcs lo hi,
  inputs St univ fuel s pcs lo ->
  probabilistic St s = false -> plain s -> max_nlayers opt = 0 -> (forall x y, lo x y = hi x y) ->
  ((exists H n m, stabilization_ck St eq_dec univ fuel s opt pcs lo hi = Some (Accepted St H n m)) <->
   (exists x, legit s x) /\
   (forall x, closed_assume St s x = true -> lo x x = false) /\
   closed St (moves lo) (holds (closed_assume St s)) /\
   closed St (moves lo) (legit s) /\
   converges St (moves lo) (holds (closed_assume St s)) (legit s) /\
   (style St s <> FutureAndClosed -> forall x y, legit s x -> (lo x y = true <-> shadow_xn St s x y = true)) /\
   (behav St s = FutureActiveShadow \/ style St s = FutureAndActiveShadow ->
      forall x, legit s x -> exists y, lo x y = true) /\
   (behav St s = FutureSilent -> forall x, closed_assume St s x = true -> ~ on_cycle St (moves lo) x)).
Proof.
  intros St eq_dec univ fuel s opt pcs lo hi Hin Hp Hd Hm Heq. unpack Hin.
  rewrite (direct_exact St eq_dec univ Hall fuel Hf s opt pcs lo hi same_refl same_sym same_trans Hpcs Hp Hd Hm Heq).
  unfold direct_ok, rp. split.
  - intros (H1 & H2 & H3 & H4 & (H5 & H6 & H7) & H8). split; [exact H1|].
    split. { intros x Hx. specialize (H2 x Hx). destruct (lo x x); congruence. }
    split; [exact H3|]. split; [exact H5|]. split; [exact H4|].
    split. { intros Hs x y Hx. destruct (H6 Hs) as (E1 & E2). split; [apply E2; auto|]. intros Hy. rewrite Heq. apply E1; auto. }
    split; [|exact H8]. intros Hs x Hx. destruct (H7 Hs x Hx) as (y & Hy). exists y. rewrite Heq. auto.
  - intros (H1 & H2 & H3 & H5 & H4 & H6 & H7 & H8). split; [exact H1|].
    split. { intros x Hx X. rewrite H2 in X; auto. discriminate. }
    split; [exact H3|]. split; [exact H4|]. split; [|exact H8]. split; [exact H5|]. split.
    + intros Hs. split; intros x y Hx Hy; [rewrite <- Heq|]; apply (H6 Hs x y Hx); auto.
    + intros Hs x Hx. destruct (H7 Hs x Hx) as (y & Hy). exists y. rewrite <- Heq. auto.
Qed.
Print Assumptions C35_accepts_exactly.

(** An example: 3 -> 2 -> 0 <-> 1, legitimate states 0 and 1. *)
Definition ex_opt := mkOptions 0 true true false.
Definition ex_same := qrel [(0, 0); (1, 1); (2, 2); (3, 3)].
Definition ex_xn := qrel [(3, 2); (2, 0); (0, 1); (1, 0)].
Definition ex_sys style behav := mkSys quad (qset [0; 1]) (qset [0; 1; 2; 3]) (qrel [(0, 1); (1, 0)]) ex_same
  false false style DirectInvariant behav.

Definition show (o : option (verdict quad)) : option (verdict quad + list nat * nat * nat) :=
  match o with
  | Some (Accepted _ H n m) => Some (inr (shown H, n, m))
  | Some v => Some (inl v)
  | None => None
  end.

Lemma quad_equiv : forall r : quad -> quad -> bool,
  forallb (fun x => r x x && forallb (fun y => Bool.eqb (r x y) (r y x) &&
    forallb (fun z => negb (r x y && r y z) || r x z) quads) quads) quads = true ->
  is_equivalence quad (moves r).
Proof.
  intros r H.
  assert (G : forall x, r x x = true /\ forall y, r x y = r y x /\ forall z, r x y = true -> r y z = true -> r x z = true).
  { intros x. rewrite forallb_forall in H. specialize (H x (quads_all x)). apply andb_true_iff in H. destruct H as (H1 & H).
    split; auto. intros y. rewrite forallb_forall in H. specialize (H y (quads_all y)). apply andb_true_iff in H.
    destruct H as (H2 & H). apply eqb_prop in H2. split; auto. intros z Hxy Hyz.
    rewrite forallb_forall in H. specialize (H z (quads_all z)). rewrite Hxy, Hyz in H. exact H. }
  split; [apply G|]. split; [|intros x y z; apply G]. intros x y Hxy. rewrite (proj1 (proj2 (G y) x)). auto.
Qed.

Example C35_example :
  inputs quad quads 5 (ex_sys FutureAndShadow FutureActiveShadow) [] ex_xn /\
  show (stabilization_ck quad quad_dec quads 5 (ex_sys FutureAndShadow FutureActiveShadow) ex_opt [] ex_xn ex_xn)
    = Some (inr ([0; 1], 2, 2)) /\
  show (stabilization_ck quad quad_dec quads 5 (ex_sys FutureAndClosed FutureShadow) ex_opt [] ex_xn ex_xn)
    = Some (inr ([0; 1], 2, 2)) /\
  show (stabilization_ck quad quad_dec quads 5 (ex_sys FutureAndClosed FutureSilent) ex_opt [] ex_xn ex_xn)
    = Some (inl (BadInvariant quad)).
Proof.
  split; [|vm_compute; auto].
  split; [exact quads_all|simpl; lia|apply quad_equiv; reflexivity|discriminate].
Qed.

(** A protocol under construction: 3 may still be given a way to 2. *)
Example C35_candidates_example :
  show (stabilization_ck quad quad_dec quads 5 (ex_sys FutureAndClosed FutureShadow) ex_opt []
    (qrel [(2, 0); (0, 1); (1, 0)]) ex_xn) = Some (inr ([0; 1], 1, 2)) /\
  show (stabilization_ck quad quad_dec quads 5 (ex_sys FutureAndClosed FutureShadow) ex_opt []
    (qrel [(2, 0); (0, 1); (1, 0)]) (qrel [(2, 0); (0, 1); (1, 0)])) = Some (inl (Deadlock quad)).
Proof. vm_compute. auto. Qed.

(** The first reported number: after that many steps every execution is in the
    invariant, and it is the least such number. *)
Theorem C51_strong_steps_exact :
  forall St (eq_dec : forall x y : St, {x = y} + {x <> y}) univ fuel s opt pcs lo hi,
  inputs St univ fuel s pcs lo ->
  forall H n m, probabilistic St s = false ->
  count_convergence_layers opt = true -> count_convergence_steps opt = true ->
  stabilization_ck St eq_dec univ fuel s opt pcs lo hi = Some (Accepted St H n m) ->
  (forall x y, closed_assume St s x = true -> steps St (moves lo) n x y -> invariant St s y = true) /\
  (forall i, i < n -> exists x y,
     closed_assume St s x = true /\ steps St (moves lo) i x y /\ invariant St s y = false) /\
  (max_nlayers opt = 0 \/ n + 1 <= max_nlayers opt).
Proof.
  intros St eq_dec univ fuel s opt pcs lo hi Hin H n m Hp Ho1 Ho2 Hc. unpack Hin.
  destruct (accepted_strong St eq_dec univ Hall fuel Hf s opt pcs lo hi same_refl same_sym same_trans Hpcs H n m Hp Hc)
    as (k & -> & Hm & Hk). rewrite Ho1 in Hk. rewrite Ho2. destruct Hk. auto.
Qed.
Print Assumptions C51_strong_steps_exact.

(** The second one: every assumed state has an execution of at most that many
    steps into the returned states, and it is the least such number. *)
Theorem C51_weak_steps_exact :
  forall St (eq_dec : forall x y : St, {x = y} + {x <> y}) univ fuel s opt pcs lo hi,
  inputs St univ fuel s pcs lo ->
  forall H n m, probabilistic St s = false -> synchronous opt = false -> (forall x y, lo x y = hi x y) ->
  count_convergence_layers opt = true -> count_convergence_steps opt = true ->
  stabilization_ck St eq_dec univ fuel s opt pcs lo hi = Some (Accepted St H n m) ->
  (forall x, closed_assume St s x = true ->
     near St (moves lo) (holds (closed_assume St s)) (holds H) m x) /\
  (forall i, i < m -> exists x, closed_assume St s x = true /\
     ~ near St (moves lo) (holds (closed_assume St s)) (holds H) i x).
Proof.
  intros St eq_dec univ fuel s opt pcs lo hi Hin H n m Hp Hs Heq Ho1 Ho2 Hc. unpack Hin.
  destruct (accepted_weak St eq_dec univ Hall fuel Hf s opt pcs lo hi same_refl same_sym same_trans Hpcs H n m Hp Hc Heq Hs)
    as (k & -> & Hk). cbn zeta in Hk. rewrite Ho1 in Hk. rewrite Ho2. exact Hk.
Qed.
Print Assumptions C51_weak_steps_exact.

(** A longer and a shorter way from 3 to the invariant: 3 -> 2 -> 0 and 3 -> 1. *)
Example C51_example :
  show (stabilization_ck quad quad_dec quads 5 (ex_sys FutureAndClosed FutureShadow) ex_opt []
    (qrel [(3, 2); (2, 0); (3, 1)]) (qrel [(3, 2); (2, 0); (3, 1)])) = Some (inr ([0; 1], 2, 1)).
Proof. vm_compute. auto. Qed.

(** * C36 *)
(** The early rejections each have a witness. *)
Theorem C36_rejection_witness :
  forall St (eq_dec : forall x y : St, {x = y} + {x <> y}) univ fuel s opt pcs lo hi,
  inputs St univ fuel s pcs lo ->
  forall v, stabilization_ck St eq_dec univ fuel s opt pcs lo hi = Some v ->
  (v = NoOverlap St -> forall x, ~ legit s x) /\
  (v = SelfLoop St -> exists x, closed_assume St s x = true /\ lo x x = true) /\
  (v = NotClosed St -> exists x y,
     closed_assume St s x = true /\ lo x y = true /\ closed_assume St s y = false) /\
  (v = Deadlock St -> exists x,
     closed_assume St s x = true /\ invariant St s x = false /\ deadlocked St (moves hi) x) /\
  (v = TooManyLayers St -> count_convergence_layers opt = true -> exists x y,
     closed_assume St s x = true /\ steps St (moves lo) (max_nlayers opt - 1) x y /\ invariant St s y = false) /\
  (v = NotWeaklyConverging St -> plain s -> exists x, closed_assume St s x = true /\
     forall j, ~ near St (moves hi) (holds (closed_assume St s)) (legit s) j x).
Proof.
  intros St eq_dec univ fuel s opt pcs lo hi Hin v Hc. unpack Hin.
  pose proof (verdict_known St eq_dec univ Hall fuel Hf s opt pcs lo hi same_refl same_sym same_trans Hpcs _ Hc) as Hv.
  split; [intros ->; exact Hv|]. split; [intros ->; apply Hv|]. split; [intros ->; exact Hv|].
  split; [intros ->; exact Hv|]. split.
  - intros -> Ho. destruct Hv as (Hm & _ & HA & Hs). specialize (Hs (max_nlayers opt - 1) ltac:(lia)).
    unfold settles in Hs. rewrite Ho in Hs.
    destruct (sat St univ (fun y => span St eq_dec univ lo (closed_assume St s) (max_nlayers opt - 1) y && negb (invariant St s y))) eqn:E.
    + apply (sat_spec St univ Hall) in E. destruct E as (y & Hy). apply andb_true_iff in Hy.
      rewrite negb_true_iff, (span_spec St eq_dec univ Hall) in Hy. destruct Hy as ((x & Hx1 & Hx2) & Hy).
      exists x, y. auto.
    + exfalso. apply Hs. right. intros y (x & Hx & Hxy).
      pose proof (proj1 (sat_false St univ Hall _) E y) as F. cbn beta in F.
      assert (X : span St eq_dec univ lo (closed_assume St s) (max_nlayers opt - 1) y = true)
        by (apply (span_spec St eq_dec univ Hall); eauto).
      rewrite X in F. simpl in F. apply negb_false_iff in F. auto.
  - intros -> Hd. apply Hv. exact Hd.
Qed.
Print Assumptions C36_rejection_witness.

(** "Livelock found": there is no closed set of legitimate states that all
    executions end up in. *)
Theorem C36_livelock_witness :
  forall St (eq_dec : forall x y : St, {x = y} + {x <> y}) univ fuel s opt pcs lo hi,
  inputs St univ fuel s pcs lo ->
  probabilistic St s = false ->
  stabilization_ck St eq_dec univ fuel s opt pcs lo hi = Some (Livelock St) ->
  closed St (moves lo) (holds (closed_assume St s)) /\
  (exists x, invariant St s x = false /\ between_cycles St (moves lo) (holds (closed_assume St s)) x) /\
  (forall C : St -> Prop, (forall y, C y -> legit s y) -> closed St (moves lo) C ->
     ~ converges St (moves lo) (holds (closed_assume St s)) C).
Proof.
  intros St eq_dec univ fuel s opt pcs lo hi Hin. unpack Hin.
  exact (livelock_np St eq_dec univ Hall fuel Hf s opt pcs lo hi same_refl same_sym same_trans Hpcs).
Qed.
Print Assumptions C36_livelock_witness.

(** With a closed invariant it is a real livelock: an infinite execution that
    keeps leaving the invariant. *)
Theorem C36_livelock_closed_invariant :
  forall St (eq_dec : forall x y : St, {x = y} + {x <> y}) univ fuel s opt pcs lo hi,
  inputs St univ fuel s pcs lo ->
  probabilistic St s = false -> closed St (moves lo) (legit s) ->
  stabilization_ck St eq_dec univ fuel s opt pcs lo hi = Some (Livelock St) ->
  exists f, closed_assume St s (f 0) = true /\ infinite_run St (moves lo) f /\
    forall n, exists m, n <= m /\ invariant St s (f m) = false.
Proof.
  intros St eq_dec univ fuel s opt pcs lo hi Hin Hp Hcl Hc. unpack Hin.
  destruct (livelock_np St eq_dec univ Hall fuel Hf s opt pcs lo hi same_refl same_sym same_trans Hpcs Hp Hc)
    as (HA & (x & Hx & c1 & c2 & A1 & A2 & A3 & _) & _).
  assert (Hno : invariant St s c1 = false).
  { destruct (invariant St s c1) eqn:E; auto. exfalso.
    destruct (closed_reaches St (moves lo) (legit s) Hcl c1 x (conj E A1) A3). congruence. }
  destruct (cycle_run St (moves lo) c1 A2) as (f & F0 & Fr & Ff). exists f.
  split; [rewrite F0; exact A1|]. split; [exact Fr|]. intros n. destruct (Ff n) as (m & Hm & E).
  exists m. rewrite E. auto.
Qed.
Print Assumptions C36_livelock_closed_invariant.

(** With an invariant that is not closed "livelock found" may be reported
    although no execution leaves the invariant more than once: a state between
    two cycles counts.  Here 0 <-> 1 -> 2 -> 3 <-> 4 with 2 not legitimate. *)
Inductive five := v0 | v1 | v2 | v3 | v4.
Definition five_dec : forall x y : five, {x = y} + {x <> y}.
Proof. decide equality. Defined.
Definition fives := [v0; v1; v2; v3; v4].
Definition five_xn (a b : five) : bool :=
  match a, b with v0, v1 | v1, v0 | v1, v2 | v2, v3 | v3, v4 | v4, v3 => true | _, _ => false end.
Definition five_inv (a : five) : bool := match a with v2 => false | _ => true end.
Definition five_sys := mkSys five five_inv (fun _ => true) (fun _ _ => false)
  (fun a b => if five_dec a b then true else false) false false FutureAndClosed DirectInvariant FutureShadow.

Lemma five_run : forall f, infinite_run five (moves five_xn) f ->
  forall n, f n = v2 -> forall m, n < m -> five_inv (f m) = true.
Proof.
  intros f Hr n Hn m Hm.
  assert (G : forall k, f (S n + k) = v3 \/ f (S n + k) = v4).
  { induction k.
    - rewrite Nat.add_0_r. pose proof (Hr n) as H. rewrite Hn in H. destruct (f (S n)); simpl in H; auto; discriminate.
    - replace (S n + S k) with (S (S n + k)) by lia. pose proof (Hr (S n + k)) as H.
      destruct IHk as [E|E]; rewrite E in H; destruct (f (S (S n + k))); simpl in H; auto; discriminate. }
  specialize (G (m - S n)). replace (S n + (m - S n)) with m in G by lia. destruct G as [-> | ->]; reflexivity.
Qed.

Theorem C36_livelock_is_a_livelock_refuted :
  exists (St : Type) (eq_dec : forall x y : St, {x = y} + {x <> y}) univ fuel s opt pcs lo,
  inputs St univ fuel s pcs lo /\ probabilistic St s = false /\
  stabilization_ck St eq_dec univ fuel s opt pcs lo lo = Some (Livelock St) /\
  (forall x, ~ deadlocked St (moves lo) x) /\
  forall f, infinite_run St (moves lo) f ->
    forall n, invariant St s (f n) = false -> forall m, n < m -> invariant St s (f m) = true.
Proof.
  exists five, five_dec, fives, 6, five_sys, ex_opt, [], five_xn.
  split; [split; [intros []; simpl; auto 6|simpl; lia| |discriminate]|].
  { unfold is_equivalence. simpl. split; [|split].
    - intros x. destruct (five_dec x x); congruence.
    - intros x y. destruct (five_dec x y), (five_dec y x); congruence.
    - intros x y z. destruct (five_dec x y), (five_dec y z), (five_dec x z); congruence. }
  split; [reflexivity|]. split; [vm_compute; reflexivity|]. split.
  - intros x H. destruct x; [exact (H v1 eq_refl)|exact (H v0 eq_refl)|exact (H v3 eq_refl)|exact (H v4 eq_refl)|exact (H v3 eq_refl)].
  - intros f Hr n Hn. apply five_run; auto. simpl in Hn. destruct (f n); auto; discriminate.
Qed.
Print Assumptions C36_livelock_is_a_livelock_refuted.

Example C36_example :
  show (stabilization_ck quad quad_dec quads 5 (ex_sys FutureAndClosed FutureShadow) ex_opt []
    (qrel [(2, 3); (3, 2); (2, 0)]) (qrel [(2, 3); (3, 2); (2, 0)])) = Some (inl (Livelock quad)) /\
  show (stabilization_ck quad quad_dec quads 5 (ex_sys FutureAndClosed FutureShadow) (mkOptions 2 true true false) []
    ex_xn ex_xn) = Some (inl (TooManyLayers quad)) /\
  show (stabilization_ck quad quad_dec quads 5 (ex_sys FutureAndClosed FutureShadow) ex_opt []
    (qrel [(3, 3)]) ex_xn) = Some (inl (SelfLoop quad)).
Proof. vm_compute. auto. Qed.
