(** C97: a system that passes the check makes sense.
    Statements use IntegSpec; proofs are in IntegProofs. *)
From Coq Require Import List Arith Bool Lia.
From Verif Require Import FinLib Radix FmlaModel FmlaSpec FmlaProofs FmlaProofs2 FmlaProofs3 FmlaProofs4
  ActModel ActSpec ActProofs ActProps NetModel NetSpec NetProofs CandModel CandSpec CandProofs IntegModel IntegSpec IntegProofs.
Import ListNotations.

(** A system is accepted if and only if what it reads at random are variables of the implementation,
    and, for all their values, the other variables can be chosen such that the state is legitimate. *)
Theorem C97_accepted : forall S, system_ok S ->
  (integrity_ck S false = Fine <-> draws_puppets S /\ legitimate_for_all S).
Proof.
  intros S H. pose proof (so_net _ H) as HN. unfold integrity_ck.
  rewrite <- (draws_iff S), <- (fits_iff S HN (so_invariant _ H)). split.
  - destruct (claims_hold S); cbn; [|discriminate]. destruct (random_reads_puppets S), (invariant_fits S); cbn; auto; discriminate.
  - intros [D F]. rewrite D, F. rewrite (proj2 (claims_iff S HN) (draws_no_stray S HN (proj1 (draws_iff S) D))). reflexivity.
Qed.
Print Assumptions C97_accepted.

(** The check stops at an internal claim if and only if a variable that the specification is about, and
    that has more than one value, changes by itself. *)
Theorem C97_claims : forall S, system_ok S -> (integrity_ck S false = ClaimFails <-> stray_draw S).
Proof.
  intros S H. pose proof (so_net _ H) as HN. unfold integrity_ck. pose proof (claims_iff S HN) as C. split.
  - intros E. destruct (claims_hold S) eqn:K; cbn in E; [destruct (random_reads_puppets S && invariant_fits S); discriminate|].
    unfold claims_hold in K.
    assert (D : forall v, {puppet S v} + {~ puppet S v}) by (intros v; unfold puppet; destruct (nth v (vroles (s_net S)) Direct); auto; right; discriminate).
    destruct (existsb (fun v => (if D v then false else true) && (2 <=? nth v (vdoms (s_net S)) 0)) (random_vbls (s_net S))) eqn:X.
    + apply existsb_exists in X. destruct X as (v & V & B). apply andb_true_iff in B. destruct B as [B1 B2]. exists v.
      split; [apply (fickle_iff (s_net S)); auto|]. split; [destruct (D v); [discriminate|auto]|apply Nat.leb_le; auto].
    + exfalso. assert (NS : ~ stray_draw S).
      { intros (v & F & P & L). apply (fickle_iff (s_net S)) in F. assert (Y : existsb (fun v => (if D v then false else true) && (2 <=? nth v (vdoms (s_net S)) 0)) (random_vbls (s_net S)) = true).
        { apply existsb_exists. exists v. split; auto. destruct (D v); [contradiction|]. apply Nat.leb_le in L. rewrite L. reflexivity. }
        congruence. }
      apply C in NS. unfold claims_hold in NS. congruence.
  - intros ST. destruct (claims_hold S) eqn:K; [|reflexivity]. exfalso. apply (proj1 C); auto.
Qed.
Print Assumptions C97_claims.

(** When all variables belong to the specification, it is enough that some state is legitimate and that
    nothing is read at random. *)
Theorem C97_plain : forall S, system_ok S -> (forall v, v < length (vdoms (s_net S)) -> ~ puppet S v) ->
  (integrity_ck S false = Fine <-> draws_puppets S /\ exists s, ok (vdoms (s_net S)) s /\ holds (s_invariant S) s).
Proof.
  intros S H NP. rewrite C97_accepted by auto. split; intros [D L]; split; auto.
  - destruct (L _ (zero_ok _ (no_dom _ (so_net _ H)))) as (t & T & _ & X). eauto.
  - destruct L as (t & T & X). intros s S'. exists t. split; auto. split; auto. intros v V P. exfalso. apply (NP v); auto.
Qed.
Print Assumptions C97_plain.

(** An invariant that says nothing about variables of the implementation, and that some state meets, is accepted. *)
Theorem C97_about : forall S, system_ok S -> draws_puppets S -> about_specification S ->
  (exists s, ok (vdoms (s_net S)) s /\ holds (s_invariant S) s) -> integrity_ck S false = Fine.
Proof.
  intros S H D A (s0 & O & X). apply C97_accepted; auto. split; auto. intros s S'.
  set (ds := vdoms (s_net S)) in *.
  exists (over ds (puppets S) s s0). split; [apply over_ok; auto|]. split.
  - intros v V P. apply over_in; auto. apply puppets_in; auto.
  - apply (A s0); auto; [apply over_ok; auto|]. intros v V P. apply over_out; auto. rewrite puppets_in. tauto.
Qed.
Print Assumptions C97_about.

(** Small instances of a system are not checked. *)
Theorem C97_featherweight : forall S, integrity_ck S true = Fine.
Proof. reflexivity. Qed.
Print Assumptions C97_featherweight.

(** ** Systems of two bits: x belongs to the specification and p to the implementation *)
Definition peer : process := mkProcess 0 [0; 1] (Cst true) (Cst false) (Cst false) (Cst false) (Cst false).
Definition two_bits (tx tp : atype) (inv : fmla) : system :=
  mkSystem (mkNetwork [2; 2] [Direct; Puppet]
    [declare [Plain {| a_type := tx; a_role := Direct; a_dom := 2 |}; Plain {| a_type := tp; a_role := Puppet; a_dom := 2 |}]] [peer])
    inv (Cst true) (Cst false) false false false.
Lemma two_bits_ok : forall tx tp inv, state_fmla [2; 2] inv -> system_ok (two_bits tx tp inv).
Proof.
  intros tx tp inv I. split; cbn [two_bits s_net s_invariant s_assume s_shadow vdoms pcs]; auto.
  - split; cbn [vdoms vroles kinds pcs].
    + repeat constructor.
    + intros p [<-|[]]. cbn. lia.
    + intros p [<-|[]]. reflexivity.
    + intros p i [<-|[]] Hi. cbn in Hi. destruct i as [|[|i]]; cbn; repeat split; lia.
    + intros k [<-|[]]. apply C40_declared_processes. intros n vs [H|[H|[]]]; discriminate.
    + intros p [<-|[]] b i b' i' q _ _ _ _ _. cbn. tauto.
    + intros p [<-|[]] f [<-|[<-|[<-|[]]]]; (split; [intros b b' i q _ _ _ _|intros b i i' q _ _ _ _ _]; cbn; tauto).
  - intros b i b' i' q _ _ _ _ _. cbn. tauto.
  - intros b b' i q _ _ _ _. cbn. tauto.
  - intros p [<-|[]] b b' i q _ _ _ _. cbn. tauto.
Qed.
Definition x_is (c : nat) : fmla := eqc_PFmlaVbl [2; 2] 0 c.
Definition p_is (c : nat) : fmla := eqc_PFmlaVbl [2; 2] 1 c.
Definition same : fmla := or_PFmla (and_PFmla (x_is 0) (p_is 0)) (and_PFmla (x_is 1) (p_is 1)).
Lemma is_state : forall v c, v < 2 -> state_fmla [2; 2] (eqc_PFmlaVbl [2; 2] v c).
Proof. intros v c V a i a' i' q A I A' I' Q. unfold meaning. rewrite !(ev_eqc [2; 2]) by auto. tauto. Qed.
Lemma same_state : state_fmla [2; 2] same.
Proof.
  intros a i a' i' q A I A' I' Q. unfold meaning, same, x_is, p_is. rewrite !eval_or, !eval_and, !(ev_eqc [2; 2]) by (auto; cbn; lia). tauto.
Qed.

(** The message "Can only 'random read' with puppet variables!" (xnsys.cc:657) is not what a user sees who
    reads another variable at random: the claim before it fails. *)
Theorem C97_message_refuted : exists S, system_ok S /\ ~ draws_puppets S /\ integrity_ck S false = ClaimFails.
Proof.
  exists (two_bits RandomReadAccess WriteAccess (x_is 0)). split; [apply two_bits_ok, is_state; lia|]. split.
  - intros D. assert (X : Direct = Puppet); [|discriminate]. eapply (D _ {| a_type := RandomReadAccess; a_role := Direct; a_dom := 2 |}); [left; reflexivity|left; reflexivity|reflexivity].
  - vm_compute. reflexivity.
Qed.
Print Assumptions C97_message_refuted.

(** The message "Error: Invariant includes non-shadow variables." (xnsys.cc:682) does not come for every invariant
    that depends on a variable of the implementation. *)
Theorem C97_invariant_refuted : exists S, system_ok S /\ integrity_ck S false = Fine /\ ~ about_specification S.
Proof.
  exists (two_bits WriteAccess RandomReadAccess same). split; [apply two_bits_ok, same_state|]. split; [vm_compute; reflexivity|].
  intros A. assert (X : holds same [0; 0] <-> holds same [0; 1]).
  { apply A; try (cbn; repeat constructor). intros [|[|v]] V P; cbn in *; auto; try lia. exfalso. apply P. reflexivity. }
  unfold holds, meaning in X. destruct X as [X _]. specialize (X eq_refl). vm_compute in X. discriminate.
Qed.
Print Assumptions C97_invariant_refuted.

(** ** An example *)
Example C97_example :
  (system_ok (two_bits WriteAccess RandomReadAccess (x_is 0)) /\ draws_puppets (two_bits WriteAccess RandomReadAccess (x_is 0))
   /\ legitimate_for_all (two_bits WriteAccess RandomReadAccess (x_is 0)))
  /\ (system_ok (two_bits WriteAccess RandomReadAccess (p_is 0)) /\ integrity_ck (two_bits WriteAccess RandomReadAccess (p_is 0)) false = Reported)
  /\ stray_draw (two_bits RandomReadAccess WriteAccess (x_is 0)).
Proof.
  assert (O : forall v c, v < 2 -> system_ok (two_bits WriteAccess RandomReadAccess (eqc_PFmlaVbl [2; 2] v c))) by (intros; apply two_bits_ok, is_state; auto).
  split; [|split].
  - split; [apply O; lia|]. apply C97_accepted; [apply O; lia|]. vm_compute. reflexivity.
  - split; [apply O; lia|]. vm_compute. reflexivity.
  - apply C97_claims; [apply two_bits_ok, is_state; lia|]. vm_compute. reflexivity.
Qed.
