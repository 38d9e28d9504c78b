(** Sessions with the simulator. *)
From Coq Require Import List Arith Bool ZArith Lia Ascii Permutation.
From Verif Require Import FinLib Radix FmlaModel FmlaSpec FmlaProofs FmlaProofs2 FmlaProofs3 FmlaProofs4 FmlaProps
  ReachModel ReachSpec ReachProofs CandProofs CmdModel CmdProofs2 SimModel SimSpec SimProofs SimProofs2.
Import ListNotations.
Local Open Scope list_scope.

Lemma zeros_ok : forall l, inhabited l -> FmlaSpec.ok l (map (fun _ => 0) l).
Proof. unfold inhabited, FmlaSpec.ok. induction l as [|d l IH]; intros H; cbn; constructor; inversion H; subst; auto. Qed.

Section Session.
Variable ds : list nat.
Variable names : list (text * nat).
Variables xn invariant closed_assume : fmla.
Hypothesis SIM : simulated ds names xn invariant closed_assume.
Notation ok := (ok ds).
Notation exec := (exec ds names xn invariant closed_assume).
Notation start := (start ds closed_assume).
Notation session := (session ds names xn invariant closed_assume).
Notation meant := (meant ds xn invariant closed_assume).
Notation allowed := (allowed ds xn invariant closed_assume).
Notation offered := (offered ds xn).
Notation answer := (answer ds names xn invariant closed_assume).
Local Notation INH := (si_dom _ _ _ _ _ SIM).
Local Notation TX := (si_xn _ _ _ _ _ SIM).
Local Notation LEN := (si_names _ _ _ _ _ SIM).
Local Notation DIST := (si_distinct _ _ _ _ _ SIM).
Local Notation WORDS := (si_words _ _ _ _ _ SIM).

Lemma cycles_within_spec : assume_closed ds xn closed_assume -> xn <> Cst true ->
  exists f, cycles_within ds xn closed_assume = Some f /\ state_fmla ds f /\ forall s, ok s -> (holds f s <-> meant PCycle s).
Proof.
  intros CL NT. set (A := closed_assume). assert (T0 : state_fmla ds A) by apply (si_assume _ _ _ _ _ SIM).
  assert (FU : length (univ ds) < cycle_fuel ds). { pose proof (univ_length ds). pose proof (Nat.pow_gt_lin_r 2 (prod ds) ltac:(lia)). unfold cycle_fuel. lia. }
  destruct (cycle_ck_exact (St ds) (eq_dec ds) (univ ds) (all_states ds) (cycle_fuel ds) (rl ds xn) None (Some (pr ds A)) FU) as (q & E & H & _).
  { apply closed_cycle_closed. intros s t Hs Hr. apply (CL (val ds s) (val ds t)); auto; apply val_ok. }
  unfold cycle_ck in E. cbn [start_states] in E.
  pose proof (fwd_same ds INH xn TX NT (cycle_fuel ds) A (pr ds A) T0 (fun s => eq_refl)) as FW.
  destruct (cyc_fwd _ _ _ _ _ _ _ _ _ _) as [[|q1 n]|] in E, FW; [discriminate| |discriminate].
  destruct FW as (f1 & F1 & ST1 & P1). pose proof (bwd_same ds INH xn TX NT (cycle_fuel ds) f1 q1 ST1 P1) as BW.
  destruct (cyc_bwd (St ds) (eq_dec ds) (univ ds) (cycle_fuel ds) (rl ds xn) q1) as [q2|]; [|discriminate]. injection E as _ -> _.
  destruct BW as (f2 & F2 & ST2 & P2). exists f2. unfold cycles_within. fold A. rewrite F1, F2. split; auto. split; auto.
  intros s S. destruct (lift ds s S) as (s' & <-). unfold holds, meaning. fold (pr ds f2 s'). rewrite P2, H. cbn [SimSpec.meant].
  unfold between_cycles, on_cycle, reaches. change (trans ds xn) with (xrel ds xn). split.
  + intros (c1 & c2 & CA & (n1 & H1) & (n2 & H2) & (n3 & H3) & (n4 & H4)). exists (val ds c1), (val ds c2). split; [exact CA|].
    apply steps_val in H1, H2, H3, H4. eauto 12.
  + intros (c1 & c2 & CA & (n1 & H1) & (n2 & H2) & (n3 & H3) & (n4 & H4)).
    destruct (lift ds c1 (cycle_ok ds xn c1 (ex_intro _ n1 H1))) as (d1 & <-). destruct (lift ds c2 (cycle_ok ds xn c2 (ex_intro _ n4 H4))) as (d2 & <-).
    exists d1, d2. split; [exact CA|]. apply steps_val in H1, H2, H3, H4. eauto 12.
Qed.
Lemma silent_spec : state_fmla ds (silent_states ds xn closed_assume) /\
  forall s, ok s -> (holds (silent_states ds xn closed_assume) s <-> meant PSilent s).
Proof.
  split.
  - apply CmdProofs2.and_static; [apply (si_assume _ _ _ _ _ SIM)|]. apply not_state. apply pre_is_state, TX.
  - intros s S. unfold silent_states. rewrite CandProofs.holds_and, holds_not, (pre_state ds) by (auto; apply TX). cbn [SimSpec.meant].
    split; intros (H & K); split; auto; [intros t T X; apply K; eauto|intros (t & T & X); apply (K t); auto].
Qed.

(** A predicate that has been computed is right, and it has been if it has an influence. *)
Definition good (n : predname) (i : influence) (c : option fmla) : Prop :=
  match c with
  | Some f => state_fmla ds f /\ forall s, ok s -> (holds f s <-> meant n s)
  | None => i = IgnorePredicate
  end.
Record inv (rcs : list command) (s : sim) : Prop := mkInv {
  iv_state : ok (s_state s);
  iv_mask : state_fmla ds (s_mask s);
  iv_allowed : forall t, ok t -> (holds (s_mask s) t <-> allowed rcs t);
  iv_i1 : i_invariant s = wish PInvariant rcs;
  iv_i2 : i_silent s = wish PSilent rcs;
  iv_i3 : i_cycle s = wish PCycle rcs;
  iv_p1 : good PInvariant (i_invariant s) (p_invariant s);
  iv_p2 : good PSilent (i_silent s) (p_silent s);
  iv_p3 : good PCycle (i_cycle s) (p_cycle s)
}.
Definition sound (n : predname) (c : option fmla) : Prop :=
  match c with Some f => state_fmla ds f /\ forall s, ok s -> (holds f s <-> meant n s) | None => True end.
Lemma good_sound : forall n i c, good n i c -> sound n c.
Proof. intros n i [f|] H; cbn in *; auto. Qed.
Lemma cached_good : forall n i c f, sound n c -> (i <> IgnorePredicate -> exists g, f = Some g /\ state_fmla ds g /\ forall s, ok s -> (holds g s <-> meant n s)) ->
  exists c', cached i c f = Some c' /\ good n i c'.
Proof.
  intros n i c f S F. assert (D : i = IgnorePredicate \/ i <> IgnorePredicate) by (destruct i; auto; right; discriminate).
  destruct D as [->|NI].
  - exists c. split; auto. destruct c; [exact S|reflexivity].
  - assert (E : cached i c f = match c with Some _ => Some c | None => option_map Some f end) by (destruct i; auto; contradiction).
    rewrite E. destruct c as [g|]; [exists (Some g); split; auto|]. destruct (F NI) as (g & -> & G). exists (Some g). split; auto.
Qed.
Lemma masked_spec : forall n i c m, state_fmla ds m -> good n i c -> state_fmla ds (masked i c m) /\
  forall s, ok s -> (holds (masked i c m) s <-> holds m s /\ wanted i (meant n s)).
Proof.
  intros n i c m M G. destruct c as [f|]; cbn [good] in G.
  - destruct G as (F & H). destruct i; cbn [masked wanted]; try (split; [auto|]; intros s S; tauto).
    + split; [apply CmdProofs2.and_static; auto|]. intros s S. rewrite CandProofs.holds_and, H by auto. tauto.
    + split; [apply CmdProofs2.and_static; auto; apply not_state; auto|]. intros s S. rewrite CandProofs.holds_and, holds_not, H by auto. tauto.
  - subst i. cbn [masked wanted]. split; auto. intros s S. tauto.
Qed.
Lemma start_inv : inv [] start.
Proof.
  split; cbn; auto.
  - apply zeros_ok, INH.
  - apply (si_assume _ _ _ _ _ SIM).
  - intros t T. unfold SimSpec.allowed. cbn. split; [intros H; split; auto; intros n; exact I|tauto].
Qed.
Lemma reset_inv : forall rcs s n i, inv rcs s ->
  (uses_cycle (Predicate n i) \/ i_cycle s <> IgnorePredicate -> assume_closed ds xn closed_assume /\ xn <> Cst true) ->
  exists s', reset_mask ds xn invariant closed_assume (set_influence n i s) = Some s' /\ s_state s' = s_state s /\ inv (Predicate n i :: rcs) s'.
Proof.
  intros rcs s n i V CY. set (s1 := set_influence n i s).
  assert (I1 : i_invariant s1 = wish PInvariant (Predicate n i :: rcs)) by (unfold s1; destruct n; cbn; auto; apply V).
  assert (I2 : i_silent s1 = wish PSilent (Predicate n i :: rcs)) by (unfold s1; destruct n; cbn; auto; apply V).
  assert (I3 : i_cycle s1 = wish PCycle (Predicate n i :: rcs)) by (unfold s1; destruct n; cbn; auto; apply V).
  assert (P1 : p_invariant s1 = p_invariant s) by (unfold s1; destruct n; auto).
  assert (P2 : p_silent s1 = p_silent s) by (unfold s1; destruct n; auto).
  assert (P3 : p_cycle s1 = p_cycle s) by (unfold s1; destruct n; auto).
  assert (ST : s_state s1 = s_state s) by (unfold s1; destruct n; auto).
  unfold reset_mask. fold s1.
  destruct (cached_good PInvariant (i_invariant s1) (p_invariant s1) (Some invariant)) as (c1 & -> & G1).
  { rewrite P1. eapply good_sound, V. }
  { intros _. exists invariant. split; auto. split; [apply (si_invariant _ _ _ _ _ SIM)|]. intros t T. cbn. tauto. }
  destruct (cached_good PSilent (i_silent s1) (p_silent s1) (Some (silent_states ds xn closed_assume))) as (c2 & -> & G2).
  { rewrite P2. eapply good_sound, V. }
  { intros _. eexists. split; [reflexivity|]. apply silent_spec. }
  destruct (cached_good PCycle (i_cycle s1) (p_cycle s1) (cycles_within ds xn closed_assume)) as (c3 & -> & G3).
  { rewrite P3. eapply good_sound, V. }
  { intros NI. destruct CY as (CL & NT).
    - unfold s1 in NI. destruct n; cbn in NI; auto.
    - destruct (cycles_within_spec CL NT) as (f & E & H). exists f. auto. }
  eexists. split; [reflexivity|]. cbn [s_state]. split; auto.
  destruct (masked_spec PInvariant (i_invariant s1) c1 closed_assume (si_assume _ _ _ _ _ SIM) G1) as (M1 & H1).
  destruct (masked_spec PSilent (i_silent s1) c2 _ M1 G2) as (M2 & H2).
  destruct (masked_spec PCycle (i_cycle s1) c3 _ M2 G3) as (M3 & H3).
  split; cbn [s_state s_mask i_invariant i_silent i_cycle p_invariant p_silent p_cycle]; auto.
  - rewrite ST. apply V.
  - intros t T. rewrite H3, H2, H1 by auto. unfold SimSpec.allowed. rewrite I1, I2, I3. split.
    + intros (((K & A) & B) & C). split; auto. intros [| |]; auto.
    + intros (K & A). split; [split; [split|]|]; auto; apply (A PInvariant) || apply (A PSilent) || apply (A PCycle).
Qed.

(** The options. *)
Lemma next_options_spec : forall rcs s fwd st, inv rcs s -> ok st -> exists l, next_options ds names xn fwd st (s_mask s) = Some (map (diff_line ds names st) l) /\
  lists ds xn fwd (allowed rcs) st l.
Proof.
  intros rcs s fwd st V ST. destruct (next_states_spec ds INH xn TX fwd st (s_mask s) ST (iv_mask _ _ V)) as (l & E & ND & H).
  exists l. unfold next_options. rewrite E. split; auto. split; auto. intros t. rewrite H. unfold SimSpec.offered.
  split; intros (T & D & X & M); repeat split; auto; apply (iv_allowed _ _ V); auto.
Qed.
Lemma step_spec : forall rcs s fwd n rnd st, inv rcs s -> ok st -> exists l,
  step_loop ds names xn fwd (s_mask s) n rnd st = Some (lines_along ds names st l, last l st) /\
  path ds xn fwd (allowed rcs) st l /\ ok (last l st) /\ length l <= n /\ (length l < n -> forall t, ~ offered fwd (allowed rcs) (last l st) t).
Proof.
  intros rcs s fwd n rnd st V. revert st. induction n as [|n IH]; intros st ST.
  - exists []. cbn. repeat split; auto; lia.
  - cbn [step_loop]. destruct (next_options_spec rcs s fwd st V ST) as (l & -> & ND & H). rewrite map_length.
    destruct (length l =? 0) eqn:Z.
    + apply Nat.eqb_eq in Z. destruct l as [|]; [|discriminate]. exists []. cbn. repeat split; auto; try lia. intros _ t T. apply H in T. destruct T.
    + apply Nat.eqb_neq in Z. set (k := rnd n mod length l). assert (K : k < length l) by (apply Nat.mod_upper_bound; auto).
      set (t := nth k l []). assert (T : In t l) by (apply nth_In; auto). apply H in T.
      assert (E : nth k (map (diff_line ds names st) l) [] = diff_line ds names st t).
      { rewrite (nth_indep _ [] (diff_line ds names st [])) by (rewrite map_length; auto). apply map_nth. }
      rewrite E. rewrite (assign_there ds names LEN DIST WORDS) by (auto; apply T).
      destruct (IH t (proj1 T)) as (l' & -> & P & OK & LE & STOP). exists (t :: l'). cbn [option_map lines_along fst snd path length].
      assert (LA : last (t :: l') st = last l' t). { destruct l' as [|y l']; auto. cbn [last]. clear. revert y. induction l' as [|z l' IH]; intros y; auto. cbn [last]. apply (IH z). }
      rewrite LA. split; [auto|]. split; [split; auto|]. split; [auto|]. split; [lia|]. intros L. apply STOP. lia.
Qed.
(** Every offered state is a possible next state. *)
Lemma step_any : forall rcs s fwd st t, inv rcs s -> ok st -> offered fwd (allowed rcs) st t -> exists rnd,
  step_loop ds names xn fwd (s_mask s) 1 rnd st = Some ([diff_line ds names st t], t).
Proof.
  intros rcs s fwd st t V ST T. destruct (next_options_spec rcs s fwd st V ST) as (l & E & ND & H). apply H in T as IN.
  destruct (In_nth l t [] IN) as (k & K & N). exists (fun _ => k). cbn [step_loop]. rewrite E, map_length.
  destruct (length l =? 0) eqn:Z; [apply Nat.eqb_eq in Z; lia|]. rewrite Nat.mod_small by auto.
  rewrite (nth_indep _ [] (diff_line ds names st [])) by (rewrite map_length; auto). rewrite map_nth, N.
  rewrite (assign_there ds names LEN DIST WORDS) by (auto; apply T). reflexivity.
Qed.

Lemma fold_lines : forall st l u, Forall ok l -> ok u -> ok (fold_left (fun u line => assign ds names line u) (map (diff_line ds names st) l) u) /\
  forall v, v < length ds ->
  let w := nth v (fold_left (fun u line => assign ds names line u) (map (diff_line ds names st) l) u) 0 in
  ((forall t, In t l -> nth v t 0 = nth v st 0) /\ w = nth v u 0) \/ (exists t, In t l /\ nth v t 0 <> nth v st 0 /\ w = nth v t 0).
Proof.
  intros st. induction l as [|t l IH]; intros u F U.
  - cbn. split; auto. intros v V. left. split; auto. intros t [].
  - inversion F as [|? ? T F']; subst. cbn [map fold_left]. set (u1 := assign ds names (diff_line ds names st t) u).
    assert (U1 : ok u1) by (apply (assign_loop_ok ds names LEN INH); auto).
    destruct (IH u1 F' U1) as (O & H). split; auto. intros v V. specialize (H v V). cbn zeta in *.
    destruct (assign_diff ds names LEN DIST WORDS st t u T (ok_length ds u U)) as (_ & D). specialize (D v V). fold u1 in D.
    destruct H as [(H & W)|(t' & T' & N & W)].
    + destruct (nth v t 0 =? nth v st 0) eqn:E.
      * left. apply Nat.eqb_eq in E. split; [|congruence]. intros t' [<-|T']; auto.
      * right. apply Nat.eqb_neq in E. exists t. split; [left; auto|]. split; auto. congruence.
    + right. exists t'. split; [right; auto|auto].
Qed.
Lemma sstep_spec : forall rcs s n st, inv rcs s -> ok st -> exists ls u,
  sstep_loop ds names xn (s_mask s) n st = Some (ls, u) /\ ok u /\ rounds ds names xn (allowed rcs) n st ls u.
Proof.
  intros rcs s n st V. revert st. induction n as [|n IH]; intros st ST.
  - exists [], st. cbn. split; auto. split; auto. constructor.
  - cbn [sstep_loop]. destruct (next_options_spec rcs s true st V ST) as (l & -> & LI). rewrite map_length.
    destruct (length l =? 0) eqn:Z.
    + apply Nat.eqb_eq in Z. destruct l as [|]; [|discriminate]. exists [], st. split; auto. split; auto. apply rounds_stop. intros t T. apply LI in T. destruct T.
    + apply Nat.eqb_neq in Z.
      assert (F : Forall ok l) by (apply Forall_forall; intros t T; apply LI in T; apply T).
      destruct (fold_lines st l st F ST) as (O & H). destruct (IH _ O) as (ls & w & -> & W & R).
      eexists _, w. split; [reflexivity|]. split; auto. cbn [fst snd]. eapply rounds_go; eauto; [destruct l; [contradiction|discriminate]|].
      split; auto. intros v VL. destruct (H v VL) as [(H1 & H2)|(t & T & N & E)].
      * left. split; auto. intros t T. apply H1. apply LI. auto.
      * right. exists t. split; auto. apply LI. auto.
Qed.

(** The random state. *)
Lemma random_spec : forall rnd vs pf st, Forall (fun v => v < length ds) vs -> state_fmla ds pf -> ok st -> (exists t, ok t /\ holds pf t) ->
  (forall t, ok t -> holds pf t -> forall v, v < length ds -> ~ In v vs -> nth v t 0 = nth v st 0) ->
  exists u, random_loop ds rnd vs pf st = Some u /\ ok u /\ holds pf u.
Proof.
  intros rnd. induction vs as [|v vs IH]; intros pf st W F ST (t & T & H) A.
  - exists st. split; auto. split; auto. assert (t = st); [|subst; auto].
    apply (nth_ext _ _ 0 0); [rewrite (ok_length ds t T), (ok_length ds st ST); auto|]. intros v V. apply (A t T H); [rewrite <- (ok_length ds t T); auto|intros []].
  - inversion W as [|? ? V W']; subst. cbn [random_loop]. set (vals := filter _ _).
    assert (EQ : forall x, x < nth v ds 0 -> (In x vals <-> exists t, ok t /\ holds pf t /\ nth v t 0 = x)).
    { intros x X. unfold vals. rewrite filter_In, in_seq, (overlap_state ds INH) by (auto; apply eqc_state; auto). split.
      - intros (_ & u & U & H1 & H2). exists u. split; auto. split; auto. apply (eqc_is ds v x u u u); auto.
      - intros (u & U & H1 & H2). split; [lia|]. exists u. split; auto. split; auto. apply (eqc_is ds v x u u u); auto. }
    assert (TV : nth v t 0 < nth v ds 0) by (apply (ok_nth ds); auto).
    assert (NE : length vals <> 0). { assert (IN : In (nth v t 0) vals) by (apply EQ; eauto). destruct vals; [destruct IN|discriminate]. }
    destruct (length vals =? 0) eqn:Z; [apply Nat.eqb_eq in Z; contradiction|]. set (x := nth (rnd (length vs) mod length vals) vals 0).
    assert (XI : In x vals) by (apply nth_In, Nat.mod_upper_bound; auto).
    assert (XB : x < nth v ds 0) by (unfold vals in XI; apply filter_In in XI; destruct XI as (XI & _); apply in_seq in XI; lia).
    apply EQ in XI; auto. destruct XI as (t' & T' & H' & E').
    assert (HX : forall u, ok u -> (holds (and_PFmla pf (eqc_PFmlaVbl ds v x)) u <-> holds pf u /\ nth v u 0 = x)).
    { intros u U. rewrite CandProofs.holds_and. unfold holds at 2. rewrite eqc_is by auto. tauto. }
    destruct (IH (and_PFmla pf (eqc_PFmlaVbl ds v x)) (upd st v x)) as (u & E & U & HU); auto.
    + apply CmdProofs2.and_static; auto. apply eqc_state; auto.
    + apply (upd_ok ds); auto.
    + exists t'. split; auto. apply HX; auto.
    + intros w WO WH y Y NI. apply HX in WH; auto. destruct WH as (WH & WE). destruct (Nat.eq_dec y v) as [->|N].
      * rewrite nth_upd_same by (rewrite (ok_length ds st ST); auto). auto.
      * rewrite nth_upd_other by auto. apply (A w WO WH); auto. intros [|]; auto.
    + exists u. split; auto. split; auto. apply HX in HU; tauto.
Qed.
Lemma random_ext : forall vs rnd rnd' pf st, (forall k, k < length vs -> rnd k = rnd' k) -> random_loop ds rnd vs pf st = random_loop ds rnd' vs pf st.
Proof.
  induction vs as [|v vs IH]; intros rnd rnd' pf st E; auto. cbn [random_loop]. rewrite (E (length vs)) by (cbn; lia).
  destruct (_ =? 0); auto. apply IH. intros k K. apply E. cbn. lia.
Qed.
Lemma random_any : forall t vs pf st, Forall (fun v => v < length ds) vs -> state_fmla ds pf -> ok st -> ok t -> holds pf t ->
  (forall v, v < length ds -> ~ In v vs -> nth v t 0 = nth v st 0) ->
  exists rnd, random_loop ds rnd vs pf st = Some t.
Proof.
  intros t. induction vs as [|v vs IH]; intros pf st W F ST T H A.
  - exists (fun _ => 0). cbn. f_equal. apply (nth_ext _ _ 0 0); [rewrite (ok_length ds t T), (ok_length ds st ST); auto|]. intros v V. symmetry.
    apply A; [rewrite <- (ok_length ds st ST); auto|intros []].
  - inversion W as [|? ? V W']; subst. set (x := nth v t 0). assert (TV : x < nth v ds 0) by (apply (ok_nth ds); auto).
    destruct (IH (and_PFmla pf (eqc_PFmlaVbl ds v x)) (upd st v x)) as (rnd & E); auto.
    + apply CmdProofs2.and_static; auto. apply eqc_state; auto.
    + apply (upd_ok ds); auto.
    + apply CandProofs.holds_and. split; auto. apply eqc_is; auto.
    + intros y Y NI. destruct (Nat.eq_dec y v) as [->|N].
      * rewrite nth_upd_same by (rewrite (ok_length ds st ST); auto). auto.
      * rewrite nth_upd_other by auto. apply A; auto. intros [|]; auto.
    + set (vals := filter (fun j => overlap_ck ds pf (eqc_PFmlaVbl ds v j)) (seq 0 (nth v ds 0))).
      assert (IN : In x vals).
      { unfold vals. apply filter_In. split; [apply in_seq; lia|]. apply (overlap_state ds INH); auto; [apply eqc_state; auto|].
        exists t. split; auto. split; auto. apply eqc_is; auto. }
      destruct (In_nth vals x 0 IN) as (k & K & N).
      exists (fun j => if j =? length vs then k else rnd j). cbn [random_loop]. fold vals. rewrite Nat.eqb_refl.
      destruct (length vals =? 0) eqn:Z; [apply Nat.eqb_eq in Z; lia|]. rewrite Nat.mod_small, N by auto. rewrite <- E.
      apply random_ext. intros j J. destruct (j =? length vs) eqn:Q; auto. apply Nat.eqb_eq in Q. lia.
Qed.
Lemma order_in : forall order, Permutation order (seq 0 (length ds)) -> Forall (fun v => v < length ds) order /\ forall v, v < length ds -> In v order.
Proof.
  intros order P. split.
  - apply Forall_forall. intros v H. apply (Permutation_in v P) in H. apply in_seq in H. lia.
  - intros v H. apply (Permutation_in v (Permutation_sym P)). apply in_seq. lia.
Qed.
Lemma randomize_spec : forall rcs s order rnd st, inv rcs s -> ok st -> Permutation order (seq 0 (length ds)) ->
  exists u, randomize_state ds order rnd (s_mask s) st = Some u /\ ok u /\ (allowed rcs u \/ u = st /\ forall t, ok t -> ~ allowed rcs t).
Proof.
  intros rcs s order rnd st V ST P. destruct (order_in order P) as (W & IN). unfold randomize_state. destruct (sat_ck ds (s_mask s)) eqn:S.
  - apply (sat_state ds INH) in S; [|apply V]. destruct (random_spec rnd order (s_mask s) st W (iv_mask _ _ V) ST S) as (u & E & U & H).
    + intros t _ _ v VL NI. exfalso. apply NI. auto.
    + exists u. split; auto. split; auto. left. apply (iv_allowed _ _ V); auto.
  - exists st. split; auto. split; auto. right. split; auto. intros t T A. apply (iv_allowed _ _ V) in A; auto.
    assert (sat_ck ds (s_mask s) = true) by (apply (sat_state ds INH); [apply V|eauto]). congruence.
Qed.
Lemma randomize_any : forall rcs s order st t, inv rcs s -> ok st -> Permutation order (seq 0 (length ds)) -> ok t -> allowed rcs t ->
  exists rnd, randomize_state ds order rnd (s_mask s) st = Some t.
Proof.
  intros rcs s order st t V ST P T A. destruct (order_in order P) as (W & IN). apply (iv_allowed _ _ V) in A; auto. unfold randomize_state.
  assert (sat_ck ds (s_mask s) = true) as -> by (apply (sat_state ds INH); [apply V|eauto]).
  apply (random_any t order); auto; [apply V|]. intros v VL NI. exfalso. apply NI. auto.
Qed.

Lemma state_pfmla_spec : forall st, ok st -> state_fmla ds (state_pfmla ds st) /\ forall s, ok s -> (holds (state_pfmla ds st) s <-> s = st).
Proof.
  intros st ST. assert (K : forall vs f, Forall (fun v => v < length ds) vs -> state_fmla ds f ->
    state_fmla ds (fold_left (fun pf i => and_PFmla pf (eqc_PFmlaVbl ds i (nth i st 0))) vs f) /\
    forall s, ok s -> (holds (fold_left (fun pf i => and_PFmla pf (eqc_PFmlaVbl ds i (nth i st 0))) vs f) s <-> holds f s /\ forall v, In v vs -> nth v s 0 = nth v st 0)).
  { induction vs as [|v vs IH]; intros f W F; cbn [fold_left].
    - split; auto. intros s S. split; [intros H; split; auto; intros v []|tauto].
    - inversion W as [|? ? V W']; subst. destruct (IH (and_PFmla f (eqc_PFmlaVbl ds v (nth v st 0))) W') as (G & H); [apply CmdProofs2.and_static; auto; apply eqc_state; auto|].
      split; auto. intros s S. rewrite H, CandProofs.holds_and by auto. unfold holds at 2. rewrite eqc_is by auto. split.
      + intros ((A & B) & C). split; auto. intros u [<-|U]; auto.
      + intros (A & B). split; [split; auto; apply B; left; auto|]. intros u U. apply B. right. auto. }
  destruct (K (seq 0 (length st)) (Cst true)) as (A & B).
  - rewrite (ok_length ds st ST). apply wf_all.
  - intros a i a' i' p _ _ _ _ _. unfold meaning. cbn. tauto.
  - split; auto. intros s S. unfold state_pfmla. rewrite B by auto. split; [|intros ->; split; [reflexivity|auto]].
    intros (_ & H). apply (nth_ext _ _ 0 0); [rewrite (ok_length ds s S), (ok_length ds st ST); auto|]. intros v V. apply H. apply in_seq. rewrite (ok_length ds st ST), <- (ok_length ds s S). lia.
Qed.
Lemma sat_line_spec : forall n i c st, good n i c -> ok st -> exists l, sat_line ds n i c st = Some l /\
  map fst l = (match i with IgnorePredicate => [] | _ => [n] end) /\ forall m b, In (m, b) l -> (b = true <-> meant m st).
Proof.
  intros n i c st G ST. destruct (state_pfmla_spec st ST) as (SF & SI).
  assert (D : i = IgnorePredicate \/ i <> IgnorePredicate) by (destruct i; auto; right; discriminate).
  destruct D as [->|NI]; [exists []; cbn; split; auto; split; auto; intros m b []|].
  destruct c as [f|]; cbn [good] in G; [|contradiction]. destruct G as (F & H).
  exists [(n, overlap_ck ds f (state_pfmla ds st))]. split; [destruct i; auto; contradiction|]. split; [destruct i; auto; contradiction|].
  intros m b [E|[]]. injection E as <- <-. rewrite (overlap_state ds INH) by auto. split.
  - intros (s & S & HF & HS). apply SI in HS; auto. subst s. apply H; auto.
  - intros M. exists st. split; auto. split; [apply H; auto|apply SI; auto].
Qed.
Lemma show_sat_spec : forall rcs s, inv rcs s -> exists l, show_sat ds s = Some l /\
  map fst l = filter (fun n => match wish n rcs with IgnorePredicate => false | _ => true end) [PInvariant; PSilent; PCycle] /\
  forall n b, In (n, b) l -> (b = true <-> meant n (s_state s)).
Proof.
  intros rcs s V. unfold show_sat.
  destruct (sat_line_spec PInvariant _ _ (s_state s) (iv_p1 _ _ V) (iv_state _ _ V)) as (l1 & -> & A1 & B1).
  destruct (sat_line_spec PSilent _ _ (s_state s) (iv_p2 _ _ V) (iv_state _ _ V)) as (l2 & -> & A2 & B2).
  destruct (sat_line_spec PCycle _ _ (s_state s) (iv_p3 _ _ V) (iv_state _ _ V)) as (l3 & -> & A3 & B3).
  exists (l1 ++ l2 ++ l3). split; auto. split.
  - rewrite !map_app, A1, A2, A3, (iv_i1 _ _ V), (iv_i2 _ _ V), (iv_i3 _ _ V). cbn [filter].
    destruct (wish PInvariant rcs), (wish PSilent rcs), (wish PCycle rcs); reflexivity.
  - intros n b H. rewrite !in_app_iff in H. destruct H as [H|[H|H]]; auto.
Qed.

Lemma inv_state : forall rcs s c st, inv rcs s -> ok st -> (forall n i, c <> Predicate n i) -> inv (c :: rcs) (with_state s st).
Proof.
  intros rcs s c st V ST NP. assert (WI : forall n, wish n (c :: rcs) = wish n rcs) by (intros n; destruct c; auto; destruct (NP name i); auto).
  destruct V as [V1 V2 V3 V4 V5 V6 V7 V8 V9].
  split; cbn [with_state s_state s_mask i_invariant i_silent i_cycle p_invariant p_silent p_cycle]; rewrite ?WI; auto.
  intros t T. rewrite V3 by auto. unfold SimSpec.allowed.
  split; intros (A & B); (split; [auto|]); intros n; specialize (B n); rewrite ?WI in *; auto.
Qed.
Lemma inv_same : forall rcs s c, inv rcs s -> (forall n i, c <> Predicate n i) -> inv (c :: rcs) s.
Proof. intros rcs s c V NP. replace s with (with_state s (s_state s)) by (destruct s; reflexivity). apply inv_state; auto; apply V. Qed.

(** The cycle predicate has an influence only if a command gave it one. *)
Lemma wish_cycle : forall rcs, wish PCycle rcs <> IgnorePredicate -> Exists uses_cycle rcs.
Proof.
  induction rcs as [|c rcs IH]; cbn [wish]; [intros C; contradiction|]. intros H. destruct c; try (right; apply IH; exact H).
  destruct name; cbn [same_name] in H; try (right; apply IH; exact H). left. exact H.
Qed.

Lemma exec_spec : forall rcs s c, inv rcs s -> fair_command ds c ->
  (Exists uses_cycle (c :: rcs) -> assume_closed ds xn closed_assume /\ xn <> Cst true) ->
  exists s' o, exec s c = Some (s', o) /\ inv (c :: rcs) s' /\ answer (fun n => wish n rcs) (allowed rcs) (s_state s) c o (s_state s').
Proof.
  intros rcs s c V FC CY. assert (ST := iv_state _ _ V). destruct c as [line| | | | |fwd n rnd|n|order rnd|n i]; cbn [SimModel.exec].
  - assert (O : ok (assign ds names line (s_state s))) by (apply (assign_loop_ok ds names LEN INH); auto).
    do 2 eexists. split; [reflexivity|]. split; [apply inv_state; auto; discriminate|]. split; auto.
  - destruct (next_options_spec rcs s true (s_state s) V ST) as (l & -> & L). do 2 eexists. split; [reflexivity|].
    split; [apply inv_same; auto; discriminate|]. split; auto. exists l. auto.
  - destruct (next_options_spec rcs s false (s_state s) V ST) as (l & -> & L). do 2 eexists. split; [reflexivity|].
    split; [apply inv_same; auto; discriminate|]. split; auto. exists l. auto.
  - destruct (show_sat_spec rcs s V) as (l & -> & A & B). do 2 eexists. split; [reflexivity|].
    split; [apply inv_same; auto; discriminate|]. split; auto. exists l. auto.
  - do 2 eexists. split; [reflexivity|]. split; [apply inv_same; auto; discriminate|]. split; reflexivity.
  - destruct (step_spec rcs s fwd n rnd (s_state s) V ST) as (l & -> & P & O & LE & STOP). do 2 eexists. split; [reflexivity|].
    split; [apply inv_state; auto; discriminate|]. exists l. auto.
  - destruct (sstep_spec rcs s n (s_state s) V ST) as (ls & u & -> & U & R). do 2 eexists. split; [reflexivity|].
    split; [apply inv_state; auto; discriminate|]. exists ls. auto.
  - destruct (randomize_spec rcs s order rnd (s_state s) V ST FC) as (u & -> & U & H). do 2 eexists. split; [reflexivity|].
    split; [apply inv_state; auto; discriminate|]. split; auto.
  - destruct (reset_inv rcs s n i V) as (s' & -> & E & V').
    { intros [H|H]; apply CY; [left; auto|right; apply wish_cycle; rewrite <- (iv_i3 _ _ V); auto]. }
    do 2 eexists. split; [reflexivity|]. split; auto. split; auto.
Qed.

Lemma session_app : forall cs s cs', session s (cs ++ cs') =
  match session s cs with None => None | Some (s1, o1) => match session s1 cs' with None => None | Some (s2, o2) => Some (s2, o1 ++ o2) end end.
Proof.
  induction cs as [|c cs IH]; intros s cs'; cbn [app SimModel.session].
  - destruct (session s cs') as [(s2 & o2)|]; auto.
  - destruct (exec s c) as [(s1 & o)|]; auto. rewrite IH. destruct (session s1 cs) as [(s2 & o2)|]; cbn [option_map fst snd]; auto.
    destruct (session s2 cs') as [(s3 & o3)|]; cbn [option_map fst snd app]; auto.
Qed.
Lemma session_inv : forall cs, Forall (fair_command ds) cs -> (Exists uses_cycle cs -> assume_closed ds xn closed_assume /\ xn <> Cst true) ->
  exists s os, session start cs = Some (s, os) /\ length os = length cs /\ inv (rev cs) s.
Proof.
  intros cs. induction cs as [|c cs IH] using rev_ind; intros F CY.
  - exists start, []. split; auto. split; auto. apply start_inv.
  - apply Forall_app in F. destruct F as (F & FC). inversion FC; subst. destruct IH as (s & os & E & L & V); auto.
    { intros H. apply CY. apply Exists_app. auto. }
    destruct (exec_spec (rev cs) s c V) as (s' & o & X & V' & _); auto.
    { intros H. apply CY. apply Exists_app. inversion H as [? ? U|? ? U]; subst; [right; left; auto|]. left. apply Exists_rev in U. rewrite rev_involutive in U. auto. }
    exists s', (os ++ [o]). rewrite session_app, E. cbn [SimModel.session]. rewrite X. cbn [option_map fst snd]. split; auto.
    split; [rewrite !app_length; cbn; lia|]. rewrite rev_app_distr. exact V'.
Qed.
End Session.
