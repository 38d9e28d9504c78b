(** C52-C54: the stabilization check for randomised protocols and for
    protocols specified through shadow variables. *)
From Coq Require Import List Arith Bool Lia.
From Verif Require Import FinLib Sample ReachModel ReachSpec ReachProofs StabModel StabSpec
  StabProofs StabProofs2 StabProofs3 StabProofs4 StabProps.
Import ListNotations ReachSpec.

(** * C52 *)
(** An accepted randomised protocol: whatever the scheduler does, from every
    assumed state chance brings the system into the returned states within as
    many steps as there are states, with positive probability; and they are
    not left again. *)
Theorem C52_accepted_randomised :
  forall St (eq_dec : forall x y : St, {x = y} + {x <> y}) univ fuel s opt pcs lo hi,
  inputs St univ fuel s pcs lo ->
  forall H n m, probabilistic St s = true -> (forall x y, lo x y = hi x y) ->
  stabilization_ck St eq_dec univ fuel s opt pcs lo hi = Some (Accepted St H n m) ->
  (forall x, H x = true -> legit s x) /\
  (plain s \/ scope St s = DirectInvariant -> forall x, legit s x -> H x = true) /\
  closed St (moves lo) (holds (closed_assume St s)) /\
  closed St (moves lo) (holds H) /\
  (forall x, closed_assume St s x = true ->
     attracted St (map (fun pc => moves pc) pcs) (holds H) (length univ) x).
Proof.
  intros St eq_dec univ fuel s opt pcs lo hi Hin H n m Hp Heq Hc. unpack Hin.
  destruct (accepted_prob St eq_dec univ Hall fuel Hf s opt pcs lo hi same_refl same_sym same_trans Hpcs H n m Hp Hc Heq)
    as (core & (B1 & B2 & _ & B4 & B5 & B6 & B7 & B8) & Hat).
  split; [exact B2|]. split; [exact B8|]. split; [exact B4|]. split; [exact B6|].
  intros x Hx. generalize (Hat x Hx). generalize (length univ). intros k. revert x Hx.
  induction k; intros x Hx [X|X]; try (left; apply B1; exact X).
  - destruct X.
  - destruct X as (X1 & X2). right. split; [exact X1|]. intros Q HQ Hm. destruct (X2 Q HQ Hm) as (t & Ht & X3).
    exists t. split; auto. apply IHk; auto. apply in_map_iff in HQ. destruct HQ as (pc & <- & Hpc).
    apply (B4 x t Hx). apply Hpcs; eauto.
Qed.
Print Assumptions C52_accepted_randomised.

(** "Livelock found": some assumed state from which a scheduler can prevent
    every closed set of legitimate states from being reached, for ever. *)
Theorem C52_livelock_randomised :
  forall St (eq_dec : forall x y : St, {x = y} + {x <> y}) univ fuel s opt pcs lo hi,
  inputs St univ fuel s pcs lo -> probabilistic St s = true ->
  stabilization_ck St eq_dec univ fuel s opt pcs lo hi = Some (Livelock St) ->
  exists x, closed_assume St s x = true /\
  forall C : St -> Prop, (forall y, C y -> legit s y) -> closed St (moves lo) C ->
  forall k, ~ attracted St (map (fun pc => moves pc) pcs) C k x.
Proof.
  intros St eq_dec univ fuel s opt pcs lo hi Hin. unpack Hin.
  exact (livelock_prob St eq_dec univ Hall fuel Hf s opt pcs lo hi same_refl same_sym same_trans Hpcs).
Qed.
Print Assumptions C52_livelock_randomised.

(** Without shadow variables the check of a randomised protocol is exact. *)
Theorem C52_accepts_exactly :
  forall St (eq_dec : forall x y : St, {x = y} + {x <> y}) univ fuel s opt pcs lo hi,
  inputs St univ fuel s pcs lo ->
  probabilistic St s = true -> plain s -> (forall x y, lo x y = hi x y) -> behav St s <> FutureSilent ->
  ((exists H n m, stabilization_ck St eq_dec univ fuel s opt pcs lo hi = Some (Accepted St H n m)) <->
   (exists x, legit s x) /\
   closed St (moves lo) (holds (closed_assume St s)) /\
   closed St (moves lo) (legit s) /\
   (forall x, closed_assume St s x = true ->
      attracted St (map (fun pc => moves pc) pcs) (legit s) (length univ) x) /\
   (style St s <> FutureAndClosed -> forall x y, legit s x -> (lo x y = true <-> shadow_xn St s x y = true)) /\
   (behav St s = FutureActiveShadow \/ style St s = FutureAndActiveShadow ->
      forall x, legit s x -> exists y, lo x y = true)).
Proof.
  intros St eq_dec univ fuel s opt pcs lo hi Hin Hp Hd Heq Hb. unpack Hin.
  rewrite (direct_exact_prob St eq_dec univ Hall fuel Hf s opt pcs lo hi same_refl same_sym same_trans Hpcs Hp Hd Heq Hb).
  unfold direct_ok, rp. split.
  - intros (H1 & H3 & (H5 & H6 & H7) & H8). split; [exact H1|]. split; [exact H3|]. split; [exact H5|]. split; [exact H8|].
    split. { intros Hs x y Hx. destruct (H6 Hs) as (E1 & E2). split; [apply E2; auto|]. intros Hy. rewrite Heq. apply E1; auto. }
    intros Hs x Hx. destruct (H7 Hs x Hx) as (y & Hy). exists y. rewrite Heq. auto.
  - intros (H1 & H3 & H5 & H8 & H6 & H7). split; [exact H1|]. split; [exact H3|]. split; [|exact H8]. split; [exact H5|]. split.
    + intros Hs. split; intros x y Hx Hy; [rewrite <- Heq|]; apply (H6 Hs x y Hx); auto.
    + intros Hs x Hx. destruct (H7 Hs x Hx) as (y & Hy). exists y. rewrite <- Heq. auto.
Qed.
Print Assumptions C52_accepts_exactly.

(** One process that in state 2 moves to 3 or to 0 and in 3 back to 2: a
    livelock for a deterministic protocol, none for a randomised one.  With the
    two moves from 2 made by different processes the scheduler can avoid 0. *)
Definition ex_rand := mkSys quad (qset [0; 1]) (qset [0; 1; 2; 3]) (qrel []) ex_same
  false true FutureAndClosed DirectInvariant FutureShadow.
Example C52_example :
  let xn := qrel [(2, 3); (2, 0); (3, 2)] in
  inputs quad quads 5 ex_rand [xn] xn /\
  show (stabilization_ck quad quad_dec quads 5 ex_rand ex_opt [xn] xn xn) = Some (inr ([0; 1], 0, 2)) /\
  show (stabilization_ck quad quad_dec quads 5 ex_rand ex_opt [qrel [(2, 3); (3, 2)]; qrel [(2, 0)]] xn xn)
    = Some (inl (Livelock quad)).
Proof.
  intros xn. split; [|vm_compute; auto].
  split; [exact quads_all|simpl; lia|apply quad_equiv; reflexivity|].
  intros _ x y. split; [intros H; exists xn; simpl; auto|intros (pc & [<-|[]] & H); exact H].
Qed.

(** * C53 *)
(** A protocol specified through shadow variables (or with an invariant to be
    met eventually).  There is a set of states [core] among the returned ones
    such that:
    - it is closed and all executions end up in it;
    - every transition taken in it is one the chosen style allows: none for
      "future & silent", only visible transitions of the shadow protocol for
      "future & active shadow", otherwise also transitions that leave the
      shadow variables alone;
    - unless the invariant is only to be met in the future, each legitimate
      value of the shadow variables occurs in [core], and each transition of the
      shadow protocol from a legitimate state is made by some transition in it;
    - from every state of [core] one gets, leaving the shadow variables alone and
      without leaving [core], to a state that either makes a shadow transition or
      where the shadow protocol has none to offer;
    - an execution that stops changing the shadow variables does so where the
      shadow protocol offers no transition;
    - under "future active shadow" there is no deadlock and every execution ends
      up making visible transitions of the shadow protocol only. *)
Theorem C53_shadow_refinement :
  forall St (eq_dec : forall x y : St, {x = y} + {x <> y}) univ fuel s opt pcs lo hi,
  inputs St univ fuel s pcs lo ->
  forall H n m, probabilistic St s = false -> ~ plain s -> (forall x y, lo x y = hi x y) ->
  stabilization_ck St eq_dec univ fuel s opt pcs lo hi = Some (Accepted St H n m) ->
  let same := moves (same_shadow St s) in
  let spec := visible St (moves (shadow_xn St s)) same in
  let A := holds (closed_assume St s) in
  exists core : St -> Prop,
  (forall x, core x -> H x = true) /\ (forall x, H x = true -> legit s x) /\ (exists x, core x) /\
  closed St (moves lo) core /\ converges St (moves lo) A core /\
  (forall x y, core x -> lo x y = true ->
     match style St s with
     | FutureAndSilent => False
     | FutureAndActiveShadow => spec x y
     | FutureAndClosed | FutureAndShadow => same x y \/ spec x y
     end) /\
  (scope St s <> FutureInvariant ->
     (forall x, legit s x -> exists y, core y /\ same x y) /\
     (forall x y, legit s x -> spec x y -> exists x' y',
        core x' /\ core y' /\ lo x' y' = true /\ same x x' /\ same y y')) /\
  (forall x, core x -> exists y,
     reaches St (fun a b => lo a b = true /\ same a b /\ core b) x y /\ core y /\
     ((forall z, ~ spec y z) \/ exists z, lo y z = true /\ spec y z /\ core z)) /\
  (forall f, A (f 0) -> infinite_run St (moves lo) f -> forall k,
     (forall i, k <= i -> same (f i) (f (S i))) -> forall i, k <= i -> forall z, ~ spec (f i) z) /\
  (behav St s = FutureActiveShadow ->
     (forall x, A x -> ~ deadlocked St (moves lo) x) /\
     (forall f, A (f 0) -> infinite_run St (moves lo) f ->
        exists k, forall i, k <= i -> spec (f i) (f (S i)) /\ ~ same (f i) (f (S i)))).
Proof.
  intros St eq_dec univ fuel s opt pcs lo hi Hin H n m Hp Hd Heq Hc. unpack Hin.
  destruct (accepted_shadow St eq_dec univ Hall fuel Hf s opt pcs lo hi same_refl same_sym same_trans Hpcs H n m Hp Hc Hd Heq)
    as (core & (B1 & B2 & B3 & B4 & B5 & B6 & B7 & B8) & Hcv & Hal & Hsc & Hpr & Hinf & Hact).
  cbn zeta. exists (holds core). split; [exact B1|]. split; [exact B2|]. split; [exact B3|]. split; [exact B5|].
  split; [exact Hcv|]. split.
  { intros x y Hx Hxy. pose proof (Hal x y Hx Hxy) as X. unfold allowed in X. destruct (style St s); exact X. }
  split.
  { intros Hs. destruct (Hsc Hs) as (E1 & E2). split; [exact E1|]. intros x y Hx Hv. destruct (E2 x y Hx Hv) as (_ & E). exact E. }
  split; [exact Hpr|]. split; [exact Hinf|].
  intros Hb. destruct (Hact Hb) as (E1 & E2). split; [|exact E2].
  intros x Hx Hdead. destruct (E1 x Hx) as (y & Hy). exact (Hdead y Hy).
Qed.
Print Assumptions C53_shadow_refinement.

(** A two-bit system: shadow bit x, puppet bit p (state = 2x + p).  The shadow
    protocol flips x; the implementation does it in two steps through p. *)
Definition xp_same := qrel [(0, 0); (0, 1); (1, 0); (1, 1); (2, 2); (2, 3); (3, 2); (3, 3)].
Definition xp_sys xn style scope behav := mkSys quad (qset [0; 1; 2; 3]) (qset [0; 1; 2; 3]) xn xp_same
  true false style scope behav.
Definition xp_flip := qrel [(0, 1); (1, 2); (2, 3); (3, 0)].
Definition xp_spec := qrel [(0, 2); (2, 0); (1, 3); (3, 1)].
Example C53_example :
  inputs quad quads 5 (xp_sys xp_spec FutureAndShadow DirectInvariant FutureShadow) [] xp_flip /\
  ~ plain (xp_sys xp_spec FutureAndShadow DirectInvariant FutureShadow) /\
  show (stabilization_ck quad quad_dec quads 5 (xp_sys xp_spec FutureAndShadow DirectInvariant FutureShadow)
    ex_opt [] xp_flip xp_flip) = Some (inr ([0; 1; 2; 3], 0, 0)) /\
  show (stabilization_ck quad quad_dec quads 5 (xp_sys xp_spec FutureAndShadow ShadowInvariant FutureActiveShadow)
    ex_opt [] (qrel [(0, 2); (2, 0); (1, 0); (3, 0)]) (qrel [(0, 2); (2, 0); (1, 0); (3, 0)])) = Some (inr ([0; 1; 2; 3], 0, 0)) /\
  show (stabilization_ck quad quad_dec quads 5 (xp_sys xp_spec FutureAndShadow DirectInvariant FutureActiveShadow)
    ex_opt [] xp_flip xp_flip) = Some (inl (BadInvariant quad)).
Proof.
  split; [split; [exact quads_all|simpl; lia|apply quad_equiv; reflexivity|discriminate]|].
  split; [intros (X & _); discriminate|]. vm_compute. auto.
Qed.

(** * C54 *)
(** The documentation says that with "future & shadow" the shadow variables
    change within the invariant only as the shadow protocol says ("if no
    shadow protocol is defined ... provided that the shadow variables are not
    changed").  That holds in [core] (C53) but not in all the returned
    states: the implementation below moves from (x,p) = (0,1) to (1,0) inside
    the invariant although the shadow protocol has no transition at all. *)
Definition xp_bad := qrel [(1, 0); (1, 2); (3, 2)].
Theorem C54_returned_states_simulate_refuted :
  exists (St : Type) (eq_dec : forall x y : St, {x = y} + {x <> y}) univ fuel s opt pcs lo H n m,
  inputs St univ fuel s pcs lo /\ probabilistic St s = false /\
  style St s = FutureAndShadow /\ scope St s = DirectInvariant /\
  stabilization_ck St eq_dec univ fuel s opt pcs lo lo = Some (Accepted St H n m) /\
  (forall x y, shadow_xn St s x y = false) /\
  exists x y, H x = true /\ H y = true /\ lo x y = true /\ same_shadow St s x y = false.
Proof.
  exists quad, quad_dec, quads, 5, (xp_sys (qrel []) FutureAndShadow DirectInvariant FutureShadow), ex_opt, [], xp_bad.
  destruct (stabilization_ck quad quad_dec quads 5 (xp_sys (qrel []) FutureAndShadow DirectInvariant FutureShadow) ex_opt [] xp_bad xp_bad) as [[]|] eqn:E;
    try (vm_compute in E; discriminate).
  exists inv, nlayers, reach_nlayers.
  split; [split; [exact quads_all|simpl; lia|apply quad_equiv; reflexivity|discriminate]|].
  do 4 (split; [reflexivity|]). split; [intros [] []; reflexivity|].
  exists q1, q2. vm_compute in E. inversion E; subst. vm_compute. auto.
Qed.
Print Assumptions C54_returned_states_simulate_refuted.

(** "future & silent" is not enforced when there are no puppet variables: the
    transitions of the shadow protocol are accepted inside the invariant. *)
Theorem C54_silent_style_refuted :
  exists (St : Type) (eq_dec : forall x y : St, {x = y} + {x <> y}) univ fuel s opt pcs lo H n m,
  inputs St univ fuel s pcs lo /\ probabilistic St s = false /\
  style St s = FutureAndSilent /\ scope St s = DirectInvariant /\
  stabilization_ck St eq_dec univ fuel s opt pcs lo lo = Some (Accepted St H n m) /\
  exists x y, H x = true /\ lo x y = true.
Proof.
  exists quad, quad_dec, quads, 5, (ex_sys FutureAndSilent FutureShadow), ex_opt, [], ex_xn.
  destruct (stabilization_ck quad quad_dec quads 5 (ex_sys FutureAndSilent FutureShadow) ex_opt [] ex_xn ex_xn) as [[]|] eqn:E;
    try (vm_compute in E; discriminate).
  exists inv, nlayers, reach_nlayers.
  split; [split; [exact quads_all|simpl; lia|apply quad_equiv; reflexivity|discriminate]|].
  do 4 (split; [reflexivity|]).
  exists q0, q1. vm_compute in E. inversion E; subst. vm_compute. auto.
Qed.
Print Assumptions C54_silent_style_refuted.

(** The positive part of "future & silent" for systems with puppet variables:
    every execution from the assumed states ends, in a returned state. *)
Theorem C54_silent_style_with_puppets :
  forall St (eq_dec : forall x y : St, {x = y} + {x <> y}) univ fuel s opt pcs lo hi,
  inputs St univ fuel s pcs lo ->
  forall H n m, probabilistic St s = false -> ~ plain s -> (forall x y, lo x y = hi x y) ->
  style St s = FutureAndSilent ->
  stabilization_ck St eq_dec univ fuel s opt pcs lo hi = Some (Accepted St H n m) ->
  (forall f, closed_assume St s (f 0) = true -> ~ infinite_run St (moves lo) f) /\
  (forall f k, closed_assume St s (f 0) = true -> run St (moves lo) f k -> deadlocked St (moves lo) (f k) -> H (f k) = true) /\
  (exists x, H x = true /\ deadlocked St (moves lo) x).
Proof.
  intros St eq_dec univ fuel s opt pcs lo hi Hin H n m Hp Hd Heq Hst Hc.
  destruct (C53_shadow_refinement St eq_dec univ fuel s opt pcs lo hi Hin H n m Hp Hd Heq Hc)
    as (core & B1 & B2 & (x0 & B3) & B4 & (B5 & B5') & B6 & _).
  rewrite Hst in B6. split; [|split].
  - intros f F0 Fr. destruct (B5 f F0 Fr) as (k & Hk). apply (B6 (f k) (f (S k))); auto.
  - intros f k F0 Fr Fd. apply B1. apply (B5' f k); auto.
  - exists x0. split; auto. intros y Hy. exact (B6 x0 y B3 Hy).
Qed.
Print Assumptions C54_silent_style_with_puppets.
