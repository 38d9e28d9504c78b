(** C29-C34: the state-set algorithms, for every finite transition system. *)
From Coq Require Import List Arith Bool Lia.
From Verif Require Import FinLib Sample ReachModel ReachSpec ReachProofs.
Import ListNotations.

(** In all statements: [univ] lists the states, [eq_dec] decides their equality,
    and any fuel above the number of states is enough ([Some]: the loop ended). *)

(** * C29 *)
Theorem C29_forward_exact :
  forall St (eq_dec : forall x y : St, {x = y} + {x <> y}) univ, (forall s, In s univ) ->
  forall fuel r p, length univ < fuel ->
  exists v, img_reach St eq_dec univ fuel r p = Some v /\
  forall t, v t = true <-> exists s, p s = true /\ reaches St (fun a b => r a b = true) s t.
Proof. exact img_reach_exact. Qed.
Print Assumptions C29_forward_exact.

Theorem C29_backward_exact :
  forall St (eq_dec : forall x y : St, {x = y} + {x <> y}) univ, (forall s, In s univ) ->
  forall fuel r p, length univ < fuel ->
  exists v, pre_reach St eq_dec univ fuel r p = Some v /\
  forall s, v s = true <-> exists t, p t = true /\ reaches St (fun a b => r a b = true) s t.
Proof. exact pre_reach_exact. Qed.
Print Assumptions C29_backward_exact.

Theorem C29_undirected_exact :
  forall St (eq_dec : forall x y : St, {x = y} + {x <> y}) univ, (forall s, In s univ) ->
  forall fuel r p, length univ < fuel ->
  exists v, undirected_reach St eq_dec univ fuel r p = Some v /\
  forall t, v t = true <->
    exists s, p s = true /\ reaches St (fun a b => r a b = true \/ r b a = true) s t.
Proof. exact undirected_reach_exact. Qed.
Print Assumptions C29_undirected_exact.

Theorem C29_transitive_closure_exact :
  forall St (eq_dec : forall x y : St, {x = y} + {x <> y}) univ, (forall s, In s univ) ->
  forall fuel r, length univ + 2 <= fuel ->
  exists v, transitive_closure St eq_dec univ fuel r = Some v /\
  forall s t, v s t = true <-> exists n, steps St (fun a b => r a b = true) (S n) s t.
Proof. exact transitive_closure_exact. Qed.
Print Assumptions C29_transitive_closure_exact.

(** A line 0 -> 1 -> 2 with 3 apart. *)
Definition ex_line := qrel [(0, 1); (1, 2)].
Definition show (o : option (quad -> bool)) : option (list nat) :=
  match o with Some p => Some (shown p) | None => None end.
Example C29_example :
  show (img_reach quad quad_dec quads 5 ex_line (qset [1])) = Some [1; 2] /\
  show (pre_reach quad quad_dec quads 5 ex_line (qset [1])) = Some [0; 1] /\
  show (undirected_reach quad quad_dec quads 5 ex_line (qset [1])) = Some [0; 1; 2].
Proof. vm_compute. auto. Qed.

(** * C30 *)
Theorem C30_closure_within_greatest :
  forall St (eq_dec : forall x y : St, {x = y} + {x <> y}) univ, (forall s, In s univ) ->
  forall fuel r p, length univ < fuel ->
  exists c, closure_within St eq_dec univ fuel r p = Some c /\
  (forall s, c s = true -> p s = true) /\
  closed St (fun a b => r a b = true) (fun s => c s = true) /\
  (forall C : St -> Prop, (forall s, C s -> p s = true) ->
     closed St (fun a b => r a b = true) C -> forall s, C s -> c s = true).
Proof. exact closure_within_exact. Qed.
Print Assumptions C30_closure_within_greatest.

Example C30_example :
  show (closure_within quad quad_dec quads 5 ex_line (qset [0; 2; 3])) = Some [2; 3].
Proof. vm_compute. reflexivity. Qed.

(** * C31 *)
(** The condition on the assumed states is that they contain every cycle that
    can be reached from them; closed sets do (C31_closed). *)
Theorem C31_cycle_check_exact :
  forall St (eq_dec : forall x y : St, {x = y} + {x <> y}) univ, (forall s, In s univ) ->
  forall fuel r inv (A : St -> bool), length univ < fuel ->
  cycle_closed St (fun a b => r a b = true) (fun s => A s = true) ->
  exists found scc,
  cycle_ck St eq_dec univ fuel r None inv (Some A) = Some (mkCycle St found (Some scc) None) /\
  (found = true <-> exists s, A s = true /\ on_cycle St (fun a b => r a b = true) s) /\
  (forall s, scc s = true <->
     between_cycles St (fun a b => r a b = true) (fun s => A s = true) s).
Proof.
  intros St eq_dec univ Hall fuel r inv A Hf Hc.
  destruct (cycle_ck_exact St eq_dec univ Hall fuel r inv (Some A) Hf Hc) as (scc & H1 & H2 & H3).
  exists (sat St univ scc), scc. split; [exact H1|]. split; [exact H3|exact H2].
Qed.
Print Assumptions C31_cycle_check_exact.

Theorem C31_closed : forall St (R : St -> St -> Prop) A, closed St R A -> cycle_closed St R A.
Proof. exact closed_cycle_closed. Qed.
Print Assumptions C31_closed.

Theorem C31_whole_state_space :
  forall St (eq_dec : forall x y : St, {x = y} + {x <> y}) univ, (forall s, In s univ) ->
  forall fuel r inv, length univ < fuel ->
  exists found scc,
  cycle_ck St eq_dec univ fuel r None inv None = Some (mkCycle St found (Some scc) None) /\
  (found = true <-> exists s, on_cycle St (fun a b => r a b = true) s) /\
  (forall s, on_cycle St (fun a b => r a b = true) s -> scc s = true).
Proof.
  intros St eq_dec univ Hall fuel r inv Hf.
  destruct (cycle_ck_exact St eq_dec univ Hall fuel r inv None Hf) as (scc & H1 & H2 & H3).
  { intros s c _ _ _. reflexivity. }
  exists (sat St univ scc), scc. split; [exact H1|]. split.
  - rewrite H3. split; [intros (s & _ & H)|intros (s & H)]; exists s; auto.
  - intros s Hs. apply H2. exists s, s. repeat split; auto; apply reaches_refl.
Qed.
Print Assumptions C31_whole_state_space.

(** 0 -> 1 -> 0, 1 -> 2 -> 3 -> 3. *)
Definition ex_cyc := qrel [(0, 1); (1, 0); (1, 2); (2, 3); (3, 3)].
Definition show_cycle (o : option (cycle_result quad)) :=
  match o with
  | Some c => Some (cyc_found quad c,
      match cyc_scc quad c with Some p => shown p | None => [] end, cyc_layers quad c)
  | None => None
  end.
Example C31_example :
  show_cycle (cycle_ck quad quad_dec quads 5 ex_cyc None None None) = Some (true, [0; 1; 2; 3], None) /\
  show_cycle (cycle_ck quad quad_dec quads 5 ex_line None None None) = Some (false, [], None) /\
  show_cycle (cycle_ck quad quad_dec quads 5 ex_cyc None None (Some (qset [2; 3])))
    = Some (true, [3], None).
Proof. vm_compute. auto. Qed.

(** * C32 *)
Theorem C32_terminates_when_cycles_inside :
  forall St (eq_dec : forall x y : St, {x = y} + {x <> y}) univ, (forall s, In s univ) ->
  forall fuel r (A : St -> bool), length univ < fuel ->
  cycle_closed St (fun a b => r a b = true) (fun s => A s = true) ->
  cycle_ck_within St eq_dec univ fuel r A <> None.
Proof.
  intros St eq_dec univ Hall fuel r A Hf Hc. unfold cycle_ck_within.
  destruct (cycle_ck_exact St eq_dec univ Hall fuel r None (Some A) Hf Hc) as (scc & H & _).
  intros E. pose proof (eq_trans (eq_sym E) H) as X. discriminate.
Qed.
Print Assumptions C32_terminates_when_cycles_inside.

(** Without it the check of a predicate can run forever: two states that step to
    each other, asked about one of them. *)
Definition flip (a b : bool) : bool := negb (Bool.eqb a b).
Lemma flip_loops : forall fuel inv n (p : bool -> bool), p true <> p false ->
  cyc_fwd bool bool_dec [true; false] fuel flip inv None None n p = None.
Proof.
  induction fuel; intros inv n p H; [reflexivity|]. cbn [cyc_fwd].
  assert (E : forall s, img bool bool_dec [true; false] flip p s = p (negb s)).
  { intros s. unfold img. rewrite (tab_spec bool bool_dec [true; false]).
    - unfold flip. clear. destruct s; cbn; destruct (p true), (p false); reflexivity.
    - intros []; simpl; auto. }
  unfold equiv. cbn [forallb]. rewrite !E. cbn [negb].
  destruct (Bool.eqb (p true) (p false)) eqn:Eb; [apply eqb_prop in Eb; congruence|]. cbn [andb].
  apply IHfuel. rewrite !E. cbn. congruence.
Qed.
Theorem C32_always_terminates_refuted :
  exists (St : Type) (eq_dec : forall x y : St, {x = y} + {x <> y}) univ r A,
  (forall s, In s univ) /\ forall fuel, cycle_ck_within St eq_dec univ fuel r A = None.
Proof.
  exists bool, bool_dec, [true; false], flip, (fun s => s). split.
  - intros []; simpl; auto.
  - intros fuel. unfold cycle_ck_within, cycle_ck. rewrite flip_loops; auto. discriminate.
Qed.
Print Assumptions C32_always_terminates_refuted.

(** ... or answer yes although no cycle touches the predicate: 0 -> 1 -> 1,
    asked about 0. *)
Theorem C32_answer_within_refuted :
  exists (St : Type) (eq_dec : forall x y : St, {x = y} + {x <> y}) univ r A fuel res,
  (forall s, In s univ) /\ cycle_ck_within St eq_dec univ fuel r A = Some res /\
  cyc_found St res = true /\
  forall s, A s = true -> ~ on_cycle St (fun a b => r a b = true) s.
Proof.
  exists bool, bool_dec, [true; false], (fun _ b => b), negb, 5.
  eexists. split; [intros []; simpl; auto|]. split; [vm_compute; reflexivity|]. split; [reflexivity|].
  intros [] Hs (n & Hn); [discriminate|]. apply steps_S_r in Hn. destruct Hn as (u & _ & Hu). discriminate.
Qed.
Print Assumptions C32_answer_within_refuted.

(** * C33 *)
Theorem C33_layers_exact :
  forall St (eq_dec : forall x y : St, {x = y} + {x <> y}) univ, (forall s, In s univ) ->
  forall fuel r (inv : option (St -> bool)) limit (A : St -> bool), length univ < fuel ->
  cycle_closed St (fun a b => r a b = true) (fun s => A s = true) ->
  let settled := settled St (fun a b => r a b = true) (fun s => A s = true)
     (match inv with Some i => Some (fun s => i s = true) | None => None end) in
  (** too many layers: the limit is positive and the image had not settled
      before it *)
  (cycle_ck St eq_dec univ fuel r (Some limit) inv (Some A)
     = Some (mkCycle St false None (Some (limit + 1))) /\
   0 < limit /\ forall i, i < limit -> ~ settled i) \/
  (** or the reported number is one more than the first settled step, within the
      limit, and the rest of the answer is as without counting *)
  (exists found scc m,
   cycle_ck St eq_dec univ fuel r (Some limit) inv (Some A)
     = Some (mkCycle St found (Some scc) (Some (m + 1))) /\
   (limit = 0 \/ m + 1 <= limit) /\
   settled m /\ (forall i, i < m -> ~ settled i) /\
   (found = true <-> exists s, A s = true /\ on_cycle St (fun a b => r a b = true) s) /\
   (forall s, scc s = true <->
      between_cycles St (fun a b => r a b = true) (fun s => A s = true) s)).
Proof.
  intros St eq_dec univ Hall fuel r inv limit A Hf Hc settled.
  assert (Hs : forall k, stop St eq_dec univ r A inv k <-> settled k)
    by (intros k; apply stop_settled; auto).
  destruct (cycle_ck_layers St eq_dec univ Hall fuel r inv limit (Some A) Hf Hc)
    as [(n & H1 & _ & H2 & H3)|(scc & m & H1 & H2 & H3 & H4 & H5)].
  - left. split; [exact H1|]. split; auto. intros i Hi Hc'. apply (H3 i Hi). apply Hs. auto.
  - right. exists (sat St univ scc), scc, m. split; [exact H1|]. split; auto.
    split; [apply Hs; auto|]. split; [intros i Hi Hc'; apply (H5 i Hi); apply Hs; auto|].
    split; auto. rewrite (sat_spec St univ Hall). split.
    + intros (s & H). apply H2 in H. destruct H as (c1 & c2 & Ha & Hcy & _). eauto.
    + intros (s & Ha & H). exists s. apply H2. exists s, s. repeat split; auto; apply reaches_refl.
Qed.
Print Assumptions C33_layers_exact.

Example C33_example :
  show_cycle (cycle_ck quad quad_dec quads 5 ex_line (Some 0) None None) = Some (false, [], Some 4) /\
  show_cycle (cycle_ck quad quad_dec quads 5 ex_line (Some 3) None None) = Some (false, [], Some 4) /\
  show_cycle (cycle_ck quad quad_dec quads 5 ex_line (Some 0) (Some (qset [2; 3])) None)
    = Some (false, [], Some 3).
Proof. vm_compute. auto. Qed.

(** * C34 *)
Theorem C34_weak_convergence_exact :
  forall St (eq_dec : forall x y : St, {x = y} + {x <> y}) univ, (forall s, In s univ) ->
  forall fuel r (inv A : St -> bool), length univ < fuel ->
  let near := ReachSpec.near St (fun a b => r a b = true) (fun s => A s = true) (fun s => inv s = true) in
  exists answer k,
  weak_convergence_ck St eq_dec univ fuel r inv A (Some 0) = Some (answer, Some (k + 1)) /\
  weak_convergence_ck St eq_dec univ fuel r inv A None = Some (answer, None) /\
  (answer = true <-> forall s, A s = true -> exists j, near j s) /\
  (** k is the largest distance of a state that has one *)
  (forall j s, near j s -> near k s) /\
  (forall i, i < k -> exists s, near (S i) s /\ ~ near i s).
Proof.
  intros St eq_dec univ Hall fuel r inv A Hf near.
  destruct (weak_exact St eq_dec univ Hall fuel r inv A (Some 0) Hf) as (b & out & H1 & [(lim & E & Hl & _)|(k & H2 & H3 & H4 & H5 & _)]).
  - inversion E; subst. lia.
  - destruct (weak_exact St eq_dec univ Hall fuel r inv A None Hf) as (b' & out' & H1' & [(lim & E & _)|(k' & H2' & H3' & H4' & H5')]); [discriminate|].
    exists b, k. subst. split; auto. split.
    + rewrite H1'. f_equal. f_equal. apply eq_true_iff_eq. rewrite H4, H4'. tauto.
    + split; auto.
Qed.
Print Assumptions C34_weak_convergence_exact.

(** With a positive layer limit. *)
Theorem C34_weak_convergence_limit :
  forall St (eq_dec : forall x y : St, {x = y} + {x <> y}) univ, (forall s, In s univ) ->
  forall fuel r (inv A : St -> bool) limit, length univ < fuel -> 0 < limit ->
  let near := ReachSpec.near St (fun a b => r a b = true) (fun s => A s = true) (fun s => inv s = true) in
  (weak_convergence_ck St eq_dec univ fuel r inv A (Some limit) = Some (false, Some (limit + 1)) /\
   exists s, near limit s /\ ~ near (limit - 1) s) \/
  (exists answer k,
   weak_convergence_ck St eq_dec univ fuel r inv A (Some limit) = Some (answer, Some (k + 1)) /\
   k + 1 <= limit /\ (forall j s, near j s -> near k s) /\
   (answer = true <-> forall s, A s = true -> exists j, near j s)).
Proof.
  intros St eq_dec univ Hall fuel r inv A limit Hf Hl near.
  destruct (weak_exact St eq_dec univ Hall fuel r inv A (Some limit) Hf)
    as (b & out & H1 & [(lim & E & _ & -> & -> & H5)|(k & H2 & H3 & H4 & -> & H5)]).
  - inversion E; subst lim. left. split; auto. destruct (H5 (limit - 1)) as (s & Hs1 & Hs2); [lia|].
    exists s. replace (S (limit - 1)) with limit in Hs1 by lia. split; auto.
  - right. exists b, k. split; auto. split; [lia|]. split; auto.
Qed.
Print Assumptions C34_weak_convergence_limit.

Theorem C34_whole_state_space :
  forall St (eq_dec : forall x y : St, {x = y} + {x <> y}) univ, (forall s, In s univ) ->
  forall fuel r (inv : St -> bool), length univ < fuel ->
  exists answer, weak_convergence_all St eq_dec univ fuel r inv = Some answer /\
  (answer = true <->
   forall s, exists t, inv t = true /\ reaches St (fun a b => r a b = true) s t).
Proof.
  intros St eq_dec univ Hall fuel r inv Hf. unfold weak_convergence_all.
  destruct (pre_reach_exact St eq_dec univ Hall fuel r inv Hf) as (v & -> & Hv).
  exists (taut St univ v). split; auto. rewrite (taut_spec St univ Hall). split; intros H s; apply Hv; auto.
Qed.
Print Assumptions C34_whole_state_space.

Example C34_example :
  weak_convergence_ck quad quad_dec quads 5 ex_line (qset [2]) (qset [0; 1; 2]) (Some 0)
    = Some (true, Some 3) /\
  weak_convergence_ck quad quad_dec quads 5 ex_line (qset [2]) (qset [0; 2; 3]) (Some 0)
    = Some (false, Some 1) /\
  weak_convergence_ck quad quad_dec quads 5 ex_line (qset [2]) (qset [0; 1; 2]) (Some 1)
    = Some (false, Some 2).
Proof. vm_compute. auto. Qed.
