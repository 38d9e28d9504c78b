(** The packet handler and the timeout handler of the UDP runtime. *)
From Coq Require Import List NArith Arith Bool Lia.
Import ListNotations.
From Verif Require Import UdpModel UdpSpec UdpProofs.

Lemma eq_seq_spec a b : eq_seq a b = true <-> a = b.
Proof.
  unfold eq_seq. rewrite andb_true_iff, !N.eqb_eq. destruct a, b; cbn. split.
  - now intros [-> ->].
  - intros H; injection H; auto.
Qed.

Lemma eq_values_spec a : forall b, eq_values a b = true <-> a = b.
Proof.
  induction a as [|x a IH]; intros [|y b]; cbn; split; try discriminate; auto.
  - rewrite andb_true_iff, Nat.eqb_eq, IH. now intros [-> ->].
  - intros H. injection H as -> ->. rewrite Nat.eqb_refl. now apply IH.
Qed.

Section R.
Variable pc : iden.
Variable draw : nat -> N.

(** What is known about a state [s] inside a handler that started in [st]: an
    acknowledgement of an enabled process is one it had before or, with
    [grant k], the one given by the packet being handled. *)
Definition traced (st : State) (grant : nat -> Prop) (x : list nat) (s : State) : Prop :=
  length (channels s) = length (channels st) /\ values s = x /\
  (enabled s <> 0%N -> forall q, (q < length (channels st))%nat ->
     adj_acknowledged (chan s q) = true ->
     enabled s = enabled st /\ seq (chan s q) = seq (chan st q) /\
     (adj_acknowledged (chan st q) = true \/ grant q)).

Lemma traced_refl st grant : traced st grant (values st) st.
Proof. repeat split; auto. Qed.

Lemma traced_zero st grant x s :
  length (channels s) = length (channels st) -> values s = x -> enabled s = 0%N -> traced st grant x s.
Proof. intros L V E. repeat split; auto; congruence. Qed.

Lemma traced_enable st grant x s : traced st grant x s -> traced st grant x (CMD_enable draw s).
Proof.
  intros (L & V & A). destruct (CMD_enable_frame draw s) as (L' & M & V' & R).
  split; [congruence|]. split; [congruence|]. intros _ q Hq C.
  destruct (R q) as (_ & _ & _ & F & _); [congruence|]. congruence.
Qed.
Lemma traced_disable st grant x s : traced st grant x s -> traced st grant x (CMD_disable draw s).
Proof.
  intros (L & V & A). destruct (CMD_disable_frame draw s) as (L' & M & V' & R).
  apply traced_zero; congruence.
Qed.
Lemma traced_seq st grant x s k : (k < length (channels st))%nat ->
  traced st grant x s -> traced st grant x (CMD_seq draw s k).
Proof.
  intros Hk (L & V & A). destruct (CMD_seq_frame draw s k) as (L' & E' & V' & F & R).
  split; [congruence|]. split; [congruence|]. rewrite E'. intros E q Hq C.
  destruct (Nat.eq_dec q k) as [->|Hn].
  - destruct R as (_ & _ & _ & G & _); [congruence|congruence].
  - rewrite F in * by auto. auto.
Qed.
Lemma traced_chan st grant x s k c : (k < length (channels st))%nat ->
  traced st grant x s ->
  seq c = seq (chan s k) -> (adj_acknowledged c = true -> adj_acknowledged (chan s k) = true) ->
  traced st grant x (set_chan s k c).
Proof.
  intros Hk (L & V & A) S K. split; [now rewrite nchan_set_chan|]. split; [exact V|].
  cbn [enabled set_chan]. intros E q Hq C. destruct (Nat.eq_dec k q) as [->|Hn].
  - rewrite chan_set_eq in * by congruence. rewrite S. auto.
  - rewrite chan_set_neq in * by auto. auto.
Qed.

Lemma enable_nonzero s : enabled (CMD_enable draw s) <> 0%N /\ enabled (CMD_enable draw s) <> all_ones.
Proof. destruct (CMD_enable_frame draw s) as (_ & (A & B & _) & _). auto. Qed.

Lemma update_enabled_spec s b s' : update_enabled pc draw s = (b, s') ->
  length (channels s') = length (channels s) /\ values s' = values s /\ enabled s' <> all_ones /\
  (b = false -> channels s' = channels s /\ (enabled s' = enabled s \/ enabled s = all_ones /\ enabled s' = 0%N)) /\
  (b = true -> forall q, (q < length (channels s))%nat -> reseqed (chan s q) (chan s' q)).
Proof.
  unfold update_enabled. set (s0 := if (enabled s =? all_ones)%N then set_enabled s 0 else s).
  assert (F : channels s0 = channels s /\ values s0 = values s /\ enabled s0 <> all_ones /\
              (enabled s0 = enabled s \/ enabled s = all_ones /\ enabled s0 = 0%N)).
  { unfold s0. destruct (N.eqb_spec (enabled s) all_ones); cbn; repeat split; auto; discriminate. }
  clearbody s0. destruct F as (C & V & M & D). unfold can_act.
  assert (CH : forall q, chan (drew s0) q = chan s q) by (intros; unfold chan; cbn; congruence).
  destruct (negb _).
  - destruct (N.eqb_spec (enabled (drew s0)) 0) as [E|E]; intros H; injection H as <- <-.
    + destruct (CMD_enable_frame draw (drew s0)) as (L & (M1 & M2 & _) & V' & R).
      split; [cbn in *; congruence|]. split; [cbn in *; congruence|]. split; [auto|]. split; [discriminate|].
      intros _ q Hq. rewrite <- CH. apply R. cbn. congruence.
    + repeat split; auto; try discriminate. cbn; congruence.
  - destruct (N.eqb_spec (enabled (drew s0)) 0) as [E|E]; intros H; injection H as <- <-.
    + repeat split; auto; try discriminate. cbn; congruence.
    + destruct (CMD_disable_frame draw (drew s0)) as (L & Z & V' & R).
      split; [cbn in *; congruence|]. split; [cbn in *; congruence|]. split; [rewrite Z; discriminate|].
      split; [discriminate|]. intros _ q Hq. rewrite <- CH. apply R. cbn; congruence.
Qed.

Lemma traced_update st grant x s b s' :
  traced st grant x s -> update_enabled pc draw s = (b, s') -> traced st grant x s'.
Proof.
  intros (L & V & A) H. apply update_enabled_spec in H. destruct H as (L' & V' & M & F & R).
  split; [congruence|]. split; [congruence|]. intros E q Hq C. destruct b.
  - destruct (R eq_refl q) as (_ & _ & _ & G & _); congruence.
  - destruct F as (Fc & [Fe|[_ Fe]]); auto; [|congruence].
    unfold chan in C |- *. rewrite Fc, Fe in *. apply A; auto.
Qed.

(** * Acting *)
Lemma act_loop_frame : forall fuel s s' out, act_loop pc draw fuel s = Some (s', out) ->
  channels s' = channels s /\ enabled s' = enabled s /\
  (forall x, In x out -> exists a b c, x = Hook a b /\ b = action_assign pc c a /\ b <> a) /\
  (forall P : list nat -> Prop, P (values s) -> (forall c x, P x -> P (action_assign pc c x)) ->
     P (values s') /\ forall a b, In (Hook a b) out -> P a) /\
  (values s <> values s' -> out <> []).
Proof.
  induction fuel as [|f IH]; intros s s' out H; cbn [act_loop] in H; [discriminate|].
  destruct (eq_values _ _) eqn:E.
  - injection H as <- <-. repeat split; auto; try contradiction.
  - destruct (act_loop pc draw f _) as [[s2 o2]|] eqn:A; [|discriminate]. injection H as <- <-.
    destruct (IH _ _ _ A) as (C & En & Hs & P & N). cbn in C, En.
    split; auto. split; auto. split.
    { intros x [<-|Hx]; auto. exists (values s), (action_assign pc (draw (nd s)) (values s)), (draw (nd s)).
      repeat split; auto. intros Q. apply eq_values_spec in Q. congruence. }
    split.
    { intros Q Q0 Q1. destruct (P Q) as [P1 P2]; auto. { cbn. auto. }
      split; auto. intros a b [Hq|Hq]; [injection Hq as <- <-; auto|eauto]. }
    intros _; discriminate.
Qed.

(** * The packet handler *)

(** How an event ends: the process acted, told everyone, told one neighbour or
    stayed silent. *)
Inductive ending (k : nat) (s : State) : State -> list effect -> Prop :=
  | end_acted : forall fuel s1 hooks st' out,
      enabled s <> 0%N -> all_adj_acknowledged pc s = true ->
      act_loop pc draw fuel s = Some (s1, hooks) ->
      CMD_send_all pc (CMD_disable draw s1) = (st', out) -> ending k s st' (hooks ++ out)
  | end_bcast : forall st' out, CMD_send_all pc s = (st', out) -> ending k s st' out
  | end_reply : forall st' out, CMD_send pc s k = (st', out) -> ending k s st' out
  | end_quiet : ending k s s [].

Definition grant_of (pkt : Packet) (k : nat) (st : State) (q : nat) : Prop :=
  q = k /\ (pen pkt < enabled st)%N.


Lemma traced_ack pkt k st x : (k < length (channels st))%nat ->
  traced st (grant_of pkt k st) x (recv_ack pkt k (set_values st x)).
Proof.
  intros Hk. unfold recv_ack. destruct (negb _ && _) eqn:C; [|repeat split; auto].
  apply andb_true_iff in C. destruct C as [C1 C2]. apply N.ltb_lt in C2. cbn [enabled set_values] in *.
  split; [rewrite nchan_set_chan; reflexivity|]. split; [reflexivity|]. cbn [enabled set_chan set_values]. intros _ q Hq A.
  split; [reflexivity|]. destruct (Nat.eq_dec k q) as [->|Hn].
  - rewrite chan_set_eq by auto. split; [reflexivity|]. right; split; auto.
  - rewrite chan_set_neq in * by auto. split; [reflexivity|]. left. exact A.
Qed.

Lemma traced_recv_update st grant x a k s s' b r : (k < length (channels st))%nat ->
  traced st grant x s -> recv_update pc draw a k s = (s', b, r) ->
  traced st grant x s' /\ enabled s' <> all_ones.
Proof.
  intros Hk T. unfold recv_update. destruct (update_enabled pc draw s) as [b2 s2] eqn:EU.
  pose proof (traced_update _ _ _ _ _ _ T EU) as T2. apply update_enabled_spec in EU.
  destruct EU as (_ & _ & M2 & _ & _).
  destruct (negb b2 && a && (enabled s2 =? 0)%N) eqn:C; intros H; injection H as <- <- <-; [|auto].
  apply andb_true_iff in C. destruct C as [_ C]. apply N.eqb_eq in C.
  destruct T2 as (L & V & _). destruct (CMD_seq_frame draw s2 k) as (L' & E' & V' & _).
  split; [|cbn [enabled set_chan]; congruence].
  apply traced_zero; [rewrite nchan_set_chan; congruence|cbn [values set_chan]; congruence|].
  cbn [enabled set_chan]; congruence.
Qed.

Lemma traced_recv_adj st grant x pkt k s : (k < length (channels st))%nat ->
  traced st grant x s -> traced st grant x (recv_adj draw pkt k s) /\ enabled (recv_adj draw pkt k s) = enabled s.
Proof.
  intros Hk T. unfold recv_adj. destruct (negb _); [|auto].
  assert (A : traced st grant x (set_chan s k (with_adj (chan s k) (src_seq pkt)))) by (apply traced_chan; auto).
  destruct (_ && _); [|auto]. split; [apply traced_seq; auto|].
  destruct (CMD_seq_frame draw (set_chan s k (with_adj (chan s k) (src_seq pkt))) k) as (_ & E' & _).
  rewrite E'. reflexivity.
Qed.

Lemma traced_recv_priority st grant x pkt k s b r s' b' r' : (k < length (channels st))%nat ->
  traced st grant x s -> enabled s <> all_ones -> recv_priority draw pkt k s b r = (s', b', r') ->
  traced st grant x s' /\ enabled s' <> all_ones.
Proof.
  intros Hk T M. unfold recv_priority. destruct (N.eqb_spec (enabled s) 0) as [Z|Z]; cbn [negb].
  - assert (A : forall c, traced st grant x (set_chan s k c)).
    { intros c. destruct T as (L & V & _). apply traced_zero; auto. now rewrite nchan_set_chan. }
    assert (A2 : forall c c', traced st grant x (set_chan (set_chan s k c) k c')).
    { intros c c'. destruct (A c) as (L & V & _). apply traced_zero; auto. now rewrite nchan_set_chan. }
    destruct (eq_seq _ _); [|intros H; injection H as <- <- <-; auto].
    destruct r; [intros H; injection H as <- <- <-; split; [apply A|exact M]|].
    destruct (reply _); intros H; injection H as <- <- <-; split; auto.
  - destruct (pen pkt =? enabled s)%N.
    { intros H; injection H as <- <- <-. split; [apply traced_enable; auto|apply enable_nonzero]. }
    destruct ((enabled s <? pen pkt)%N && negb (pen pkt =? all_ones)%N); intros H; injection H as <- <- <-; [|auto].
    split; [apply traced_seq; auto|]. destruct (CMD_seq_frame draw s k) as (_ & E' & _). congruence.
Qed.

Lemma handle_recv_spec fuel pkt k st st' out :
  (k < length (channels st))%nat ->
  handle_recv pc draw fuel pkt k st = Some (st', out) ->
  (dst_seq pkt <> seq (chan st k) /\ recv_stranger pc pkt k st = (st', out)) \/
  (dst_seq pkt = seq (chan st k) /\
   exists s, traced st (grant_of pkt k st) (snd (cache pc k 0 (pvals pkt) (values st))) s /\
     enabled s <> all_ones /\ ending k s st' out).
Proof.
  intros Hk H. unfold handle_recv in H.
  destruct (eq_seq (dst_seq pkt) (seq (chan st k))) eqn:EQ; cbn [negb] in H.
  2: { left. split; [|congruence]. intros C. apply eq_seq_spec in C. congruence. }
  right. apply eq_seq_spec in EQ. split; [exact EQ|].
  destruct (cache pc k 0 (pvals pkt) (values st)) as [acted x] eqn:EC. cbn [snd].
  pose proof (traced_ack pkt k st x Hk) as T1.
  destruct (recv_update pc draw acted k (recv_ack pkt k (set_values st x))) as [[s2 b2] r2] eqn:E2.
  destruct (traced_recv_update _ _ _ _ _ _ _ _ _ Hk T1 E2) as [T2 M2].
  destruct (traced_recv_adj _ _ _ pkt k _ Hk T2) as [T3 M3].
  set (s3 := recv_adj draw pkt k s2) in *. clearbody s3.
  destruct (recv_priority draw pkt k s3 b2 (recv_reply pkt k s3 r2)) as [[s4 b4] r4] eqn:E4.
  apply (traced_recv_priority _ _ _ _ _ _ _ _ _ _ _ Hk T3) in E4; [|congruence]. destruct E4 as [T4 M4].
  exists s4. split; [exact T4|]. split; [exact M4|].
  unfold recv_finish in H. destruct (N.eqb_spec (enabled s4) 0) as [Z|Z]; cbn [negb andb] in H.
  - destruct b4; [apply end_bcast; congruence|].
    destruct r4; [apply end_reply; congruence|]. injection H as <- <-. apply end_quiet.
  - destruct (all_adj_acknowledged pc s4) eqn:A.
    + destruct (act_loop pc draw fuel s4) as [[s5 hooks]|] eqn:EA; [|discriminate].
      destruct (CMD_send_all pc (CMD_disable draw s5)) as [s6 sends] eqn:ES. injection H as <- <-.
      eapply end_acted; eauto.
    + destruct b4; [apply end_bcast; congruence|].
      destruct r4; [apply end_reply; congruence|]. injection H as <- <-. apply end_quiet.
Qed.

(** * The timeout handler *)
Lemma timeout_loop_frame : forall ks s s' out, timeout_loop pc draw ks s = (s', out) ->
  length (channels s') = length (channels s) /\ enabled s' = enabled s /\ values s' = values s /\
  (forall q, seq (chan s' q) = seq (chan s q) /\ adj_seq (chan s' q) = adj_seq (chan s q) /\
     (adj_acknowledged (chan s' q) = true -> adj_acknowledged (chan s q) = true)) /\
  sends_from pc s out /\
  (forall k p, In (Send k p) out -> In k ks /\ src_seq p = seq (chan s k) /\ dst_seq p = adj_seq (chan s k) /\
     (pen p = enabled s \/ pen p = all_ones)).
Proof.
  induction ks as [|k ks IH]; intros s s' out H; cbn [timeout_loop] in H.
  { injection H as <- <-. repeat split; auto; try contradiction. intros x []. }
  set (skips := if (NQuickTimeouts / 2 + NQuickTimeouts <=? n_timeout_skips (chan s k))%N
                then (NQuickTimeouts - 1)%N else n_timeout_skips (chan s k)) in *. clearbody skips.
  (* every state of this round agrees with s except for the timer and a dropped acknowledgement *)
  set (near := fun t : State => length (channels t) = length (channels s) /\ enabled t = enabled s /\ values t = values s /\
     forall q, seq (chan t q) = seq (chan s q) /\ adj_seq (chan t q) = adj_seq (chan s q) /\
     (adj_acknowledged (chan t q) = true -> adj_acknowledged (chan s q) = true)).
  assert (NC : forall t c, near t -> seq c = seq (chan t k) -> adj_seq c = adj_seq (chan t k) ->
             (adj_acknowledged c = true -> adj_acknowledged (chan t k) = true) -> near (set_chan t k c)).
  { intros t c (L & E & V & F) C1 C2 C3. split; [now rewrite nchan_set_chan|]. split; [exact E|]. split; [exact V|].
    intros q. destruct (Nat.eq_dec k q) as [->|Hn].
    - destruct (Nat.lt_ge_cases q (length (channels t))).
      + rewrite chan_set_eq by auto. destruct (F q) as (F1 & F2 & F3). repeat split; try congruence. auto.
      + destruct (F q) as (F1 & F2 & F3). rewrite !(chan_oob (set_chan t q c)) by (rewrite nchan_set_chan; auto).
        rewrite <- F1, <- F2, !(chan_oob t) in * by auto. repeat split; auto; discriminate.
    - rewrite chan_set_neq by auto. apply F. }
  assert (N0 : near s) by (repeat split; auto).
  set (s1 := set_chan s k (with_skips (chan s k) skips)) in *.
  assert (N1 : near s1) by (apply NC; auto).
  (* combining a near state with the rest of the loop *)
  assert (CMB : forall t t' o1 o2, near t -> timeout_loop pc draw ks t = (t', o2) -> sends_from pc s o1 ->
      (forall q p, In (Send q p) o1 -> In q (k :: ks) /\ src_seq p = seq (chan s q) /\ dst_seq p = adj_seq (chan s q) /\
         (pen p = enabled s \/ pen p = all_ones)) ->
      near t' /\ sends_from pc s (o1 ++ o2) /\
      (forall q p, In (Send q p) (o1 ++ o2) -> In q (k :: ks) /\ src_seq p = seq (chan s q) /\ dst_seq p = adj_seq (chan s q) /\
         (pen p = enabled s \/ pen p = all_ones))).
  { intros t t' o1 o2 (L & E & V & F) HT S1 P1. destruct (IH _ _ _ HT) as (L' & E' & V' & F' & S' & P').
    split; [|split].
    - split; [congruence|]. split; [congruence|]. split; [congruence|]. intros q.
      destruct (F q) as (F1 & F2 & F3), (F' q) as (G1 & G2 & G3). repeat split; try congruence. auto.
    - intros x Hx. apply in_app_iff in Hx. destruct Hx as [Hx|Hx]; [auto|].
      destruct (S' x Hx) as (q & p & -> & C). exists q, p. split; auto. eapply carries_values; eauto.
    - intros q p Hx. apply in_app_iff in Hx. destruct Hx as [Hx|Hx]; [auto|].
      destruct (P' q p Hx) as (A0 & A & B & C). destruct (F q) as (F1 & F2 & F3).
      split; [cbn; auto|]. split; [congruence|]. split; [congruence|]. rewrite <- E. exact C. }
  assert (DONE : near s' /\ sends_from pc s out /\
      (forall q p, In (Send q p) out -> In q (k :: ks) /\ src_seq p = seq (chan s q) /\ dst_seq p = adj_seq (chan s q) /\
         (pen p = enabled s \/ pen p = all_ones))).
  { destruct (adj_acknowledged (chan s k) && negb (enabled s1 =? 0)%N).
    { apply (CMB s1 s' [] out); auto; [intros x []|intros q p []]. }
    destruct (adj_acknowledged (chan s k) && (0 <? skips)%N).
    { eapply (CMB _ s' [] out); [|exact H|intros x []|intros q p []]. apply NC; auto. }
    match type of H with (match ?e with _ => _ end) = _ => destruct e as [s2 o1] eqn:E2 end.
    match type of H with (match ?e with _ => _ end) = _ => destruct e as [s3 o2] eqn:E3 end.
    injection H as <- <-.
    assert (Q : exists t e, near t /\ CMD_send1 pc t k e = (s2, o1) /\ (e = enabled s \/ e = all_ones)).
    { destruct (adj_acknowledged (chan s k)) eqn:AK.
      - eexists. exists all_ones. split; [|split; [exact E2|auto]]. apply NC; auto; discriminate.
      - exists s1, (enabled s1). split; [exact N1|split; [exact E2|auto]]. }
    destruct Q as (t & e & Nt & Et & Ee). apply CMD_send1_frame in Et.
    destruct Et as (L & E & V & F & p & -> & C & Pe & Ps & Pd). destruct Nt as (Lt & Ett & Vt & Ft).
    destruct (Ft k) as (Fk1 & Fk2 & Fk3).
    eapply (CMB _ s3 [Send k p] o2); [|exact E3| |].
    - assert (N2 : near s2).
      { split; [congruence|]. split; [congruence|]. split; [congruence|]. intros q.
        destruct (F q) as (G1 & G2 & G3), (Ft q) as (H1 & H2 & H3). repeat split; try congruence.
        rewrite G3. auto. }
      match goal with |- near (drew ?u) => assert (NU : near u) by (apply NC; auto); exact NU end.
    - intros x [<-|[]]. exists k, p. split; auto. eapply carries_values; [|exact C]. congruence.
    - intros q p' [Hq|[]]. injection Hq as <- <-. split; [cbn; auto|]. split; [congruence|]. split; [congruence|]. rewrite Pe. exact Ee. }
  destruct DONE as ((L & E & V & F) & S & P). auto 10.
Qed.

Lemma handle_timeout_spec s s' out : handle_timeout pc draw s = (s', out) ->
  length (channels s') = length (channels s) /\ values s' = values s /\ enabled s' <> all_ones /\
  (enabled s' <> 0%N -> forall q, (q < length (channels s))%nat -> adj_acknowledged (chan s' q) = true ->
     enabled s' = enabled s /\ seq (chan s' q) = seq (chan s q) /\ adj_acknowledged (chan s q) = true) /\
  sends_from pc s' out /\ (forall k p, In (Send k p) out -> (k < length (channels s))%nat).
Proof.
  unfold handle_timeout.
  set (s0 := if negb (enabled s =? 0)%N && all_adj_acknowledged pc s then set_enabled s 0 else s).
  assert (F0 : channels s0 = channels s /\ values s0 = values s /\ (enabled s0 = enabled s \/ enabled s0 = 0%N)).
  { unfold s0. destruct (_ && _); cbn; auto. }
  clearbody s0. destruct F0 as (C0 & V0 & E0).
  destruct (update_enabled pc draw s0) as [b s1] eqn:EU. intros H.
  apply update_enabled_spec in EU. destruct EU as (L1 & V1 & M1 & Fa & Fb).
  apply timeout_loop_frame in H. destruct H as (L & E & V & F & S & P).
  split; [congruence|]. split; [congruence|]. split; [congruence|]. split.
  - intros En q Hq A. destruct (F q) as (G1 & G2 & G3). apply G3 in A. destruct b.
    + destruct (Fb eq_refl q) as (_ & _ & _ & K & _); [congruence|]. congruence.
    + destruct Fa as (Fc & Fe); auto. rewrite E in En.
      assert (CH : chan s1 q = chan s q) by (unfold chan; congruence).
      rewrite CH in *. split; [|split; auto]. 
      destruct Fe as [Fe|[_ Fe]]; [|congruence]. destruct E0; congruence.
  - split.
    + intros x Hx. destruct (S x Hx) as (q & p & -> & C). exists q, p. split; auto.
      eapply carries_values; [|exact C]; congruence.
    + intros k p Hx. destruct (P k p Hx) as (K & _). apply in_seq in K. rewrite <- C0, <- L1. lia.
Qed.
End R.
