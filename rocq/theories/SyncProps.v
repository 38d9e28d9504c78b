(** C70: the steps of a synchronous system. *)
From Coq Require Import List Arith Bool Lia.
From Verif Require Import FinLib Radix FmlaModel FmlaSpec FmlaProofs FmlaProofs2 FmlaProofs4
  ActModel ActSpec ActProps NetModel NetSpec NetProofs NetProofs3 NetProps SyncSpec SyncProofs SyncProofs2.
Import ListNotations.

(** The formula has exactly the joint steps, of all processes that can act or of any of them. *)
Theorem C70_exact : forall N acts fully x, net_ok N ->
  (forall a, In a acts -> a < actions_in (kinds N) /\ representative_action_index (kinds N) a = Some a) ->
  sync_xn N fully acts = Some x ->
  trans_fmla (vdoms N) x /\
  forall s t, ok (vdoms N) s -> ok (vdoms N) t -> (steps x s t <-> joint_step N acts fully s t).
Proof. intros N acts fully x HN A E. destruct (sync_spec N HN acts A fully) as (_ & H). auto. Qed.
Print Assumptions C70_exact.

(** It is refused exactly if a variable could be written twice in one step. *)
Theorem C70_refused : forall N acts fully, net_ok N ->
  (forall a, In a acts -> a < actions_in (kinds N) /\ representative_action_index (kinds N) a = Some a) ->
  (sync_xn N fully acts = None <-> written_twice N).
Proof. intros N acts fully HN A. destruct (sync_spec N HN acts A fully) as (H & _). exact H. Qed.
Print Assumptions C70_refused.

(** Every step of all is a step of some; every move of one process that changes something is a step of some. *)
Theorem C70_some : forall N acts x y, net_ok N ->
  (forall a, In a acts -> a < actions_in (kinds N) /\ representative_action_index (kinds N) a = Some a) ->
  sync_xn N true acts = Some x -> sync_xn N false acts = Some y ->
  forall s t, ok (vdoms N) s -> ok (vdoms N) t ->
  (steps x s t -> steps y s t) /\
  ((forall v, ~ fickle N v) -> t <> s -> (exists p, In p (pcs N) /\ can_move N acts p s t) -> steps y s t).
Proof.
  intros N acts x y HN A EX EY s t S T.
  destruct (sync_spec N HN acts A true) as (_ & HX). destruct (HX x EX) as (_ & SX).
  destruct (sync_spec N HN acts A false) as (NY & HY). destruct (HY y EY) as (_ & SY). rewrite (SX s t S T), (SY s t S T). split.
  - intros [E R F]. constructor; auto. intros p Hp. destruct (E p Hp) as [H|(H & _)]; [left; auto|]. right. split; auto. discriminate.
  - intros ST NE (p & Hp & M). assert (ONCE : ~ written_twice N) by (intros W; apply NY in W; congruence).
    apply (alone N HN acts ONCE ST p s t); auto.
Qed.
Print Assumptions C70_some.

(** A synchronous system without variables that change by themselves comes to rest exactly where the asynchronous one does. *)
Theorem C70_same_rest : forall N acts fully x, net_ok N ->
  (forall a, In a acts -> a < actions_in (kinds N) /\ representative_action_index (kinds N) a = Some a) ->
  (forall v, ~ fickle N v) -> sync_xn N fully acts = Some x ->
  forall s, ok (vdoms N) s ->
  ((exists t, ok (vdoms N) t /\ steps x s t) <->
   exists p t, In p (pcs N) /\ ok (vdoms N) t /\ t <> s /\ can_move N acts p s t).
Proof.
  intros N acts fully x HN A ST E s S. destruct (sync_spec N HN acts A fully) as (NX & HX). destruct (HX x E) as (_ & SX).
  assert (ONCE : ~ written_twice N) by (intros W; apply NX in W; congruence). split.
  - intros (t & T & H). apply SX in H; auto. destruct (some_moves N acts fully s t S T H) as (p & t' & P & T' & M & NE). exists p, t'. auto.
  - intros (p & t & P & T & NE & M). destruct fully.
    + destruct (combine_moves N HN acts ONCE ST s S) with (p0 := p) (t0 := t) as (u & U & J); auto.
      * intros q Q. pose proof (sync_denotes N HN acts A) as D. unfold denotes in D.
        assert (X : exists y, means N q y (can_move N acts q)).
        { clear - D Q. induction D as [|a b l l' M D IH]; [destruct Q|]. destruct Q as [<-|Q]; eauto. }
        destruct X as (y & Y). pose proof (enabled_iff N acts q y Q Y s s s S S S) as EN.
        destruct (eval (pre_PFmla (vdoms N) y) (join s s s)); [left; apply EN; auto|right; intros H; apply EN in H; discriminate].
      * exists u. split; auto. apply SX; auto.
    + exists t. split; auto. apply SX; auto. apply (alone N HN acts ONCE ST p s t); auto.
Qed.
Print Assumptions C70_same_rest.

(** ** A concrete case *)
(** Three bits in a ring, every process copies the bit to its left: all that can act do so, or any of them. *)
Example C70_example : net_ok ring3 /\ ~ written_twice ring3 /\ (forall v, ~ fickle ring3 v) /\
  (forall a, In a [5; 2] -> a < actions_in (kinds ring3) /\ representative_action_index (kinds ring3) a = Some a) /\
  exists x y, sync_xn ring3 true [5; 2] = Some x /\ sync_xn ring3 false [5; 2] = Some y /\
  map (fun t => (eval x (join t t [1; 0; 0]), eval y (join t t [1; 0; 0]))) [[0; 1; 0]; [1; 1; 0]; [0; 0; 0]; [1; 0; 0]; [0; 1; 1]] =
  [(true, true); (false, true); (false, true); (false, false); (false, false)].
Proof.
  split; [exact ring3_ok|]. split.
  { intros W. apply twice_iff in W. apply W. vm_compute. repeat constructor; cbn; intuition discriminate. }
  split. { intros v F. apply fickle_iff in F. destruct F. }
  split. { intros a [<-|[<-|[]]]; (split; [cbn; lia|reflexivity]). }
  eexists _, _. split; [vm_compute; reflexivity|]. split; [vm_compute; reflexivity|]. vm_compute. reflexivity.
Qed.
