(** Properties C27-C28: the ring deadlock checker. *)
From Coq Require Import List Arith Lia Bool.
From Verif Require Import DeadModel DeadSpec DeadProofs.
Import ListNotations.

(** The checker terminates. *)
Theorem C27_checker_terminates :
  forall nodes, exists reports, deadlock_reports nodes = Some reports.
Proof.
  intros nodes. destruct (check_from_spec nodes (seq 0 (length nodes))) as (rs & E & _).
  - intros s Hs. apply in_seq in Hs. lia.
  - exists rs. exact E.
Qed.
Print Assumptions C27_checker_terminates.

(** ** C27: an announced deadlock of ring size n is a silent ring of exactly n
    processes with an illegitimate local state. *)
Theorem C27_announced_deadlock_is_real :
  forall nodes reports i n, deadlock_reports nodes = Some reports -> In (i, n) reports ->
    exists ring, length ring = n /\ deadlock_ring (silent_of nodes) (illegit_of nodes) ring.
Proof.
  intros nodes reports i n H Hin.
  destruct (check_from_spec nodes (seq 0 (length nodes))) as (rs & E & R1 & _).
  { intros s Hs. apply in_seq in Hs. lia. }
  unfold deadlock_reports in H. rewrite E in H. injection H as ->.
  destruct (R1 i n Hin) as (Hi & Hl & d & -> & Hw). apply in_seq in Hi.
  destruct (closed_walk_ring nodes d i Hw) as (r & L & HS & HL).
  exists r. split; auto. split; auto. exists 0. split; [lia|]. rewrite HL.
  exists (get nodes i). split; [apply nth_In; lia|]. auto.
Qed.
Print Assumptions C27_announced_deadlock_is_real.

(** Silent local states (0,0,1)ok, (0,1,0)bad, (1,0,0)ok: the ring 0,0,1. *)
Example C27_example :
  deadlock_reports [mkNode true 0 0 1; mkNode false 0 1 0; mkNode true 1 0 0] = Some [(1, 3)].
Proof. reflexivity. Qed.

(** ** C28: "does not have deadlock" is not trustworthy in general: a ring in
    which every local state is illegitimate is missed... *)
Theorem C28_no_deadlock_claim_refuted :
  exists nodes, deadlock_reports nodes = Some [] /\ NoDup (map triple nodes) /\
    forall n, 0 < n -> deadlock_ring (silent_of nodes) (illegit_of nodes) (repeat 0 n).
Proof.
  exists [mkNode false 0 0 0]. split; [reflexivity|]. split; [repeat constructor; intros []|].
  intros n Hn.
  assert (HL : forall p, local (repeat 0 n) p = (0, 0, 0)).
  { intros p. unfold local. rewrite !nth_repeat. auto. }
  split; [split|].
  - destruct n; [lia|discriminate].
  - intros p _. rewrite HL. exists (mkNode false 0 0 0). split; [left; auto|auto].
  - exists 0. rewrite repeat_length. split; auto. rewrite HL.
    exists (mkNode false 0 0 0). split; [left; auto|auto].
Qed.
Print Assumptions C28_no_deadlock_claim_refuted.

(** ... and so is a ring that also contains legitimate local states, because the
    search stops expanding a node once it meets its start. *)
Theorem C28_mixed_ring_missed_refuted :
  exists nodes, deadlock_reports nodes = Some [] /\ NoDup (map triple nodes) /\
    deadlock_ring (silent_of nodes) (illegit_of nodes) [0; 0; 0; 1].
Proof.
  exists [mkNode false 0 0 0; mkNode true 0 0 1; mkNode true 0 1 0; mkNode true 1 0 0].
  split; [reflexivity|]. split.
  { cbn. repeat constructor; simpl; intuition discriminate. }
  split; [split; [discriminate|]|].
  - intros p Hp. simpl in Hp.
    destruct p as [|[|[|[|p]]]]; [exists (mkNode true 1 0 0)|exists (mkNode false 0 0 0)|
      exists (mkNode true 0 0 1)|exists (mkNode true 0 1 0)|lia]; split; auto; simpl; tauto.
  - exists 1. split; [simpl; lia|]. exists (mkNode false 0 0 0). split; [left; auto|auto].
Qed.
Print Assumptions C28_mixed_ring_missed_refuted.

(** What does hold: if no illegitimate silent local state can stand directly to
    the right of another one, the announcement is right for rings of every
    size.  Missing: the same without that condition (false, see above). *)
Theorem C28_no_deadlock_claim_partial :
  forall nodes, NoDup (map triple nodes) ->
    (forall m n, In m nodes -> In n nodes -> legit m = false -> legit n = false ->
       ~ (x_pd n = x_id m /\ x_id n = x_sc m)) ->
    deadlock_reports nodes = Some [] ->
    forall ring, ~ deadlock_ring (silent_of nodes) (illegit_of nodes) ring.
Proof.
  intros nodes ND Hadj H ring HD.
  destruct (ring_closed_walk nodes ring HD ND) as (i & d & Hi & Hl & Hw).
  destruct (check_from_spec nodes (seq 0 (length nodes))) as (rs & E & _ & R2).
  { intros s Hs. apply in_seq in Hs. lia. }
  unfold deadlock_reports in H. rewrite E in H. injection H as ->.
  apply (R2 i) with (d := d); auto.
  - apply in_seq. lia.
  - intros t (Ht & _ & A1 & A2). destruct (legit (get nodes t)) eqn:El; auto. exfalso.
    apply (Hadj (get nodes t) (get nodes i)); auto; apply nth_In; auto.
Qed.
Print Assumptions C28_no_deadlock_claim_partial.

(** The bad local state (0,1,2) leads to 2,2,2,... and never back. *)
Example C28_example :
  let nodes := [mkNode false 0 1 2; mkNode true 1 2 2; mkNode true 2 2 2; mkNode true 0 0 0] in
  NoDup (map triple nodes) /\ deadlock_reports nodes = Some [] /\
  (forall m n, In m nodes -> In n nodes -> legit m = false -> legit n = false ->
       ~ (x_pd n = x_id m /\ x_id n = x_sc m)).
Proof.
  split; [cbn; repeat constructor; simpl; intuition discriminate|]. split; [reflexivity|].
  intros m n Hm Hn Lm Ln. simpl in Hm, Hn.
  destruct Hm as [<-|[<-|[<-|[<-|[]]]]]; try discriminate;
  destruct Hn as [<-|[<-|[<-|[<-|[]]]]]; try discriminate; simpl; intros [? ?]; discriminate.
Qed.

(** In the other direction the announcement is complete: a protocol without a
    deadlock ring is announced as such. *)
Theorem C28_deadlock_free_is_announced :
  forall nodes, (forall ring, ~ deadlock_ring (silent_of nodes) (illegit_of nodes) ring) ->
    deadlock_reports nodes = Some [].
Proof.
  intros nodes H. destruct (C27_checker_terminates nodes) as (rs & E). rewrite E.
  destruct rs as [|[i n] rs]; auto. exfalso.
  destruct (C27_announced_deadlock_is_real nodes _ i n E (or_introl eq_refl)) as (ring & _ & HD).
  apply (H ring HD).
Qed.
Print Assumptions C28_deadlock_free_is_announced.
