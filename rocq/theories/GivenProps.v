(** C66: the actions of the given protocol. *)
From Coq Require Import List Arith Bool Lia.
From Verif Require Import FinLib Radix FmlaModel FmlaSpec FmlaProofs FmlaProofs2 FmlaProofs3 FmlaProofs4 FmlaProps
  ActModel ActSpec ActProofs ActProofs2 ActProofs4 ActProps NetModel NetSpec NetProofs NetProofs2 NetProofs3 NetProofs4 NetProps
  CandModel GivenSpec GivenProofs.
Import ListNotations.

(** The actions read off the protocol of one process are those that describe one of its
    transitions.  Reading ends after finitely many rounds. *)
Theorem C66_process : forall N p, net_ok N -> In p (pcs N) -> open_kind (its_kind N p) ->
  forall fuel, 2 * length (assignments (vdoms N)) < fuel ->
  exists l, pc_actions N fuel p = Some l /\
    forall a, In a l <->
      a < actions_in (kinds N) /\ act_pc (act_of (kinds N) a) = p_kind p /\
      exists s t, given_to N p s t /\ describes N p (vals (act_of (kinds N) a)) s t.
Proof. intros N p HN Hp O fuel F. apply pc_actions_spec; auto. Qed.
Print Assumptions C66_process.

(** The actions of the system are the representatives of those of the processes that speak for
    their kind. *)
Theorem C66_system : forall N, net_ok N -> (forall p, In p (pcs N) -> open_kind (its_kind N p)) ->
  forall fuel, 2 * length (assignments (vdoms N)) < fuel ->
  exists l, given_actions N fuel = Some l /\
    forall a, In a l <-> exists q r s t, speaks N q /\
      r < actions_in (kinds N) /\ act_pc (act_of (kinds N) r) = p_kind q /\
      given_to N q s t /\ describes N q (vals (act_of (kinds N) r)) s t /\
      representative_action_index (kinds N) r = Some a.
Proof.
  intros N HN O fuel F. destruct (given_spec N HN O fuel F) as (l & E & H). exists l. split; auto. intros a. rewrite H. unfold yields. split.
  - intros (q & r & SP & (Y1 & Y2 & s & t & Y3 & Y4) & R). exists q, r, s, t. tauto.
  - intros (q & r & s & t & SP & Y1 & Y2 & Y3 & Y4 & R). exists q, r. split; auto. split; auto. split; auto. split; auto. exists s, t. auto.
Qed.
Print Assumptions C66_system.

(** ** States with given values *)
Fixpoint index (x : nat) (l : list nat) : option nat :=
  match l with [] => None | y :: l' => if x =? y then Some 0 else option_map Datatypes.S (index x l') end.
Lemma index_nth : forall l i, NoDup l -> i < length l -> index (nth i l 0) l = Some i.
Proof.
  induction l as [|y l IH]; intros i ND L; cbn in *; [lia|]. inversion ND; subst. destruct i as [|i]; [rewrite Nat.eqb_refl; auto|].
  destruct (Nat.eqb_spec (nth i l 0) y) as [E|_]; [exfalso; apply H1; rewrite <- E; apply nth_In; lia|]. rewrite IH; auto. lia.
Qed.
Lemma index_some : forall l x i, index x l = Some i -> i < length l /\ nth i l 0 = x.
Proof.
  induction l as [|y l IH]; intros x i E; cbn in *; [discriminate|]. destruct (Nat.eqb_spec x y) as [->|].
  - injection E as <-. split; [lia|auto].
  - destruct (index x l) as [m|] eqn:D; [|discriminate]. cbn in E. injection E as <-. destruct (IH x m D). split; [lia|auto].
Qed.
Lemma with_values : forall ds ids f s0, FmlaSpec.ok ds s0 -> NoDup ids -> Forall (fun v => v < length ds) ids ->
  (forall i, i < length ids -> f i < nth (nth i ids 0) ds 0) ->
  exists s, FmlaSpec.ok ds s /\ forall i, i < length ids -> nth (nth i ids 0) s 0 = f i.
Proof.
  intros ds ids f s0 S0 ND W F. pose (g := fun x => match index x ids with Some i => f i | None => nth x s0 0 end).
  assert (N : forall x, x < length ds -> nth x (map g (seq 0 (length ds))) 0 = g x).
  { intros x Hx. rewrite nth_indep with (d' := g 0) by (rewrite map_length, seq_length; auto). rewrite map_nth, seq_nth by auto. reflexivity. }
  exists (map g (seq 0 (length ds))). split.
  - apply Forall2_lt_nth. rewrite map_length, seq_length. split; auto. intros x Hx. rewrite N by auto. unfold g.
    destruct (index x ids) as [i|] eqn:E; [|apply ok_nth; auto]. apply index_some in E. destruct E as (L & <-). auto.
  - intros i Hi. rewrite N; [|rewrite Forall_forall in W; apply W, nth_In; auto]. unfold g. rewrite index_nth; auto.
Qed.

Section Steps.
Variable N : network.
Hypothesis HN : net_ok N.
Hypothesis OPEN : forall p, In p (pcs N) -> open_kind (its_kind N p).

Lemma open_access : forall p i, In p (pcs N) -> i < accesses N p ->
  visible (access_at N p i) /\ a_type (access_at N p i) <> RandomWriteAccess.
Proof. intros p i Hp Hi. apply (OPEN p Hp). apply nth_In. exact Hi. Qed.

(** What a process of an open kind does when it executes an action. *)
Lemma open_move : forall p v s t, In p (pcs N) -> action_values (its_kind N p) v -> FmlaSpec.ok (vdoms N) s ->
  (local_move N p v s t <->
   describes N p v s t /\ (forall x, x < length (vdoms N) -> ~ own N p x -> ~ fickle N x -> nth x t 0 = nth x s 0) /\
   ~ (forall i, i < accesses N p -> writable (access_at N p i) -> value t p i = value s p i)).
Proof.
  intros p v s t Hp AV S.
  assert (AD : forall i, i < accesses N p -> writable (access_at N p i) -> assigned (its_kind N p) v i < a_dom (access_at N p i)).
  { intros i Hi W. destruct AV as (_ & _ & AV). specialize (AV i Hi W). destruct (open_access p i Hp Hi) as ((V1 & V2 & V3) & V4).
    fold (access_at N p i) in AV. unfold assign_values in AV. destruct (a_type _); try congruence; destruct (a_role _); try congruence; lia. }
  split.
  - intros [G A F E _]. assert (D : describes N p v s t).
    { split.
      - intros i Hi. apply G; auto. apply open_access; auto.
      - intros i Hi W. rewrite (A i Hi W) by (apply open_access; auto). specialize (AD i Hi W).
        destruct (Nat.eqb_spec (assigned (its_kind N p) v i) (a_dom (access_at N p i))); [lia|auto]. }
    split; auto. split; auto. intros X. destruct D as (D1 & D2).
    destruct E as (i & Hi & _ & NV & _).
    + intros (i & Hi & _ & R). destruct (open_access p i Hp Hi). contradiction.
    + intros i Hi W _. rewrite <- D1, <- D2 by auto. symmetry. auto.
    + apply NV. apply open_access; auto.
  - intros ((D1 & D2) & F & C). split; auto.
    + intros i Hi W _. rewrite (D2 i Hi W). specialize (AD i Hi W).
      destruct (Nat.eqb_spec (assigned (its_kind N p) v i) (a_dom (access_at N p i))); [lia|auto].
    + intros _ X. exfalso. apply C. intros i Hi W. rewrite D1, D2 by auto. symmetry. apply X; auto. apply open_access; auto.
    + intros (i & Hi & _ & R). destruct (open_access p i Hp Hi). contradiction.
Qed.

Lemma speaker : forall p, In p (pcs N) -> exists q, speaks N q /\ p_kind q = p_kind p /\ (NoDup (p_vbls q) \/ q = p).
Proof.
  intros p Hp. pose proof (representative_cases N HN (p_kind p)) as R. destruct (representative N (p_kind p)) as [(j, q)|].
  - destruct R as (R1 & R2 & R3 & R4). exists q. split; [|auto]. split; [eapply nth_error_In; eauto|]. left. exists j. rewrite R2. auto.
  - exists p. split; auto. split; auto.
Qed.
End Steps.

(** No transition of the given protocol that changes something is lost. *)
Theorem C66_complete : forall N fuel l, net_ok N -> (forall p, In p (pcs N) -> open_kind (its_kind N p)) -> uniform N ->
  2 * length (assignments (vdoms N)) < fuel -> given_actions N fuel = Some l ->
  forall p s t, In p (pcs N) -> given_step N p s t ->
  (exists i, i < accesses N p /\ writable (access_at N p i) /\ value t p i <> value s p i) ->
  exists a, In a l /\ class_move N a p s t.
Proof.
  intros N fuel l HN OPEN UN F GA p s t Hp ((S & T & G1 & G2) & FR) (ic & Hic & Wic & Cic).
  destruct (given_spec N HN OPEN fuel F) as (l' & E & H). rewrite GA in E. injection E as <-.
  destruct (speaker N HN p Hp) as (q & SP & KQ & NDQ). assert (Hq : In q (pcs N)) by apply SP.
  assert (KK : its_kind N q = its_kind N p) by (unfold its_kind; rewrite KQ; auto).
  assert (AQ : accesses N q = accesses N p) by (unfold accesses; rewrite KK; auto).
  assert (XX : exists s' t', FmlaSpec.ok (vdoms N) s' /\ FmlaSpec.ok (vdoms N) t' /\
    (forall i, i < accesses N p -> value s p i = value s' q i) /\ (forall i, i < accesses N p -> value t p i = value t' q i)).
  { destruct NDQ as [ND| ->]; [|exists s, t; auto].
    assert (W : Forall (fun v => v < length (vdoms N)) (p_vbls q)) by (apply (read_wf N HN q Hq)).
    assert (B : forall u, FmlaSpec.ok (vdoms N) u -> forall i, i < length (p_vbls q) -> value u p i < nth (nth i (p_vbls q) 0) (vdoms N) 0).
    { intros u U i Hi. rewrite (no_vbls _ HN q Hq) in Hi. destruct (no_id _ HN q i Hq Hi) as (_ & D & _). unfold vbl_at in D. rewrite D.
      rewrite AQ in Hi. destruct (no_id _ HN p i Hp Hi) as (L & D' & _). unfold access_at in *. rewrite KK, <- D'. apply ok_nth; auto. }
    destruct (with_values (vdoms N) (p_vbls q) (value s p) s S ND W (B s S)) as (s' & S' & V1).
    destruct (with_values (vdoms N) (p_vbls q) (value t p) s S ND W (B t T)) as (t' & T' & V2).
    exists s', t'. split; auto. split; auto.
    split; intros i Hi; symmetry; [apply V1|apply V2]; rewrite (no_vbls _ HN q Hq), AQ; auto. }
  destruct XX as (s' & t' & S' & T' & V1 & V2).
  assert (GQ : given_to N q s' t').
  { apply (UN p q s t s' t'); auto. split; auto. }
  pose (r := number N q (values (p_vbls q) s') (values (own_wvbls N q) t')).
  destruct (proj1 (number_iff N HN q Hq (OPEN q Hq) r s' t' S' T') eq_refl) as (R1 & R2 & R3).
  destruct (C40_representative (kinds N) r (links_ok N HN) R1) as (a & RA & LA0 & CL & RAA & _).
  assert (LA : a < actions_in (kinds N)) by lia.
  exists a. split.
  - apply H. exists q, r. split; auto. split; auto. split; auto. split; auto. exists s', t'. auto.
  - exists r. split; auto. split.
    + apply C40_classes; auto using (links_ok N HN). rewrite RAA. auto.
    + split; [congruence|]. destruct (C39_decode (kinds N) r R1) as (_ & AV & _). rewrite R2, KQ in AV. fold (its_kind N p) in AV.
      apply (open_move N OPEN); auto. split; [|split; auto].
      * destruct R3 as (D1 & D2). rewrite AQ, KK in *. split; [intros i Hi; rewrite V1; auto|].
        intros i Hi W. rewrite V2 by auto. apply D2; auto. unfold access_at in *. rewrite KK. auto.
Qed.
Print Assumptions C66_complete.

(** Nothing is added, if the protocol treats interchangeable links alike. *)
Theorem C66_sound : forall N fuel l, net_ok N -> (forall p, In p (pcs N) -> open_kind (its_kind N p)) -> even_handed N ->
  2 * length (assignments (vdoms N)) < fuel -> given_actions N fuel = Some l ->
  forall a p s t, In a l -> In p (pcs N) -> ok (vdoms N) s -> ok (vdoms N) t ->
  class_move N a p s t -> given_step N p s t.
Proof.
  intros N fuel l HN OPEN EV F GA a p s t HA Hp S T (r & R1 & CL & KR & M).
  destruct (given_spec N HN OPEN fuel F) as (l' & E & H). rewrite GA in E. injection E as <-.
  apply H in HA. destruct HA as (q & r0 & (Hq & _) & (Y1 & Y2 & s0 & t0 & Y3 & Y4) & RA).
  destruct (C40_representative (kinds N) r0 (links_ok N HN) Y1) as (a' & RA' & LA0 & CL0 & RAA & _). rewrite RA in RA'. injection RA' as <-.
  assert (LA : a < actions_in (kinds N)) by lia.
  assert (C0 : same_action_class (kinds N) r0 r).
  { apply C40_classes; auto using (links_ok N HN). rewrite RA, <- RAA. apply C40_classes; auto using (links_ok N HN). }
  destruct C0 as (PC & RL). rewrite Y2 in *. rewrite <- KR in PC.
  destruct (C39_decode (kinds N) r R1) as (_ & AV & _). rewrite <- KR in AV. fold (its_kind N p) in AV.
  destruct (C39_decode (kinds N) r0 Y1) as (_ & AV0 & _). rewrite Y2 in AV0. fold (its_kind N q) in AV0.
  apply (open_move N OPEN) in M; auto. destruct M as (D & FR & _). split; auto.
  assert (KK : its_kind N q = its_kind N p) by (unfold its_kind; rewrite PC; auto).
  apply (EV q p (vals (act_of (kinds N) r0)) (vals (act_of (kinds N) r)) s0 t0 s t); auto. rewrite KK. auto.
Qed.
Print Assumptions C66_sound.
