(** Single events of the UDP runtime: sanitising, acting, markers, byte order. *)
From Coq Require Import List NArith Arith Bool Lia.
Import ListNotations.
From Verif Require Import UdpModel UdpSpec UdpProofs UdpProofs2 UdpProofs3.

(** * Sanitising *)
Lemma reduce_length : forall ds x, length (reduce_values ds x) = length x.
Proof.
  induction ds as [|d ds IH]; intros [|v x]; cbn; auto. destruct (d =? 0)%nat; cbn; auto.
Qed.
Lemma reduce_some : forall ds x i, (i < length x)%nat -> (forall j, (j <= i)%nat -> nth j ds 0 <> 0)%nat ->
  nth i (reduce_values ds x) 0%nat = (nth i x 0 mod nth i ds 0)%nat.
Proof.
  induction ds as [|d ds IH]; intros x i Hi H; [exfalso; apply (H 0%nat); [lia|reflexivity]|].
  destruct x as [|v x]; [cbn in Hi; lia|]. cbn [reduce_values].
  assert (D0 : d <> 0%nat) by (apply (H 0%nat); lia).
  destruct (Nat.eqb_spec d 0); [contradiction|]. destruct i as [|i]; cbn [nth].
  - destruct (Nat.leb_spec d v); auto. symmetry. apply Nat.mod_small; auto.
  - apply IH; [cbn in Hi; lia|]. intros j Hj. apply (H (S j)). lia.
Qed.
Lemma reduce_none : forall ds x i j, (j <= i)%nat -> nth j ds 0%nat = 0%nat ->
  nth i (reduce_values ds x) 0%nat = nth i x 0%nat.
Proof.
  induction ds as [|d ds IH]; intros x i j Hj H; [destruct x; reflexivity|].
  destruct x as [|v x]; [reflexivity|]. cbn [reduce_values]. destruct (Nat.eqb_spec d 0); [reflexivity|].
  destruct j as [|j]; [cbn in H; contradiction|]. destruct i as [|i]; [lia|]. cbn [nth].
  apply (IH x i j); [lia|exact H].
Qed.
Lemma nth_firstn {A} (l : list A) n i d : nth i (firstn n l) d = if (i <? n)%nat then nth i l d else d.
Proof.
  revert n i. induction l as [|a l IH]; intros [|n] i.
  - destruct i; reflexivity.
  - cbn [firstn]. destruct (i <? S n)%nat, i; reflexivity.
  - destruct i; reflexivity.
  - destruct i as [|i]; [reflexivity|]. cbn [firstn nth]. rewrite IH. reflexivity.
Qed.

(** * Sequence ids along one event *)
Definition advanced (m : N) (c c' : Channel) : Prop :=
  exists n, (n <= m)%N /\ (sidx (seq c') mod two16 = (sidx (seq c) + n) mod two16)%N.
Definition advanced_all (m : N) (st st' : State) : Prop :=
  length (channels st') = length (channels st) /\ forall q, advanced m (chan st q) (chan st' q).
Lemma advanced_same m c c' : seq c' = seq c -> advanced m c c'.
Proof. intros E. exists 0%N. split; [lia|]. rewrite E, N.add_0_r. reflexivity. Qed.
Lemma advanced_all_refl m st : advanced_all m st st.
Proof. split; auto. intros q. now apply advanced_same. Qed.
Lemma advanced_trans a b x y z : advanced a x y -> advanced b y z -> advanced (a + b) x z.
Proof.
  intros (n & Hn & E) (n' & Hn' & E'). exists (n + n')%N. split; [lia|].
  rewrite E', N.add_assoc, <- (N.add_mod_idemp_l (sidx (seq y))), E, N.add_mod_idemp_l; auto using two16_pos.
Qed.
Lemma advanced_all_trans a b x y z : advanced_all a x y -> advanced_all b y z -> advanced_all (a + b) x z.
Proof. intros [L H] [L' H']. split; [congruence|]. intros q. eapply advanced_trans; eauto. Qed.
Lemma advanced_le a b c c' : (a <= b)%N -> advanced a c c' -> advanced b c c'.
Proof. intros L (n & Hn & E). exists n. split; [lia|auto]. Qed.
Lemma advanced_reseqed c c' : reseqed c c' -> advanced 1 c c'.
Proof. intros (E & _). exists 1%N. split; [lia|]. rewrite E. apply N.mod_mod, two16_pos. Qed.

Section X.
Variable pc : iden.
Variable draw : nat -> N.

Lemma adv_reseq_all st st' : length (channels st') = length (channels st) ->
  (forall q, (q < length (channels st))%nat -> reseqed (chan st q) (chan st' q)) -> advanced_all 1 st st'.
Proof.
  intros L R. split; auto. intros q. destruct (Nat.lt_ge_cases q (length (channels st))).
  - apply advanced_reseqed; auto.
  - rewrite !chan_oob by lia. now apply advanced_same.
Qed.
Lemma adv_seq st k : advanced_all 1 st (CMD_seq draw st k).
Proof.
  destruct (CMD_seq_frame draw st k) as (L & _ & _ & F & R). split; auto. intros q.
  destruct (Nat.eq_dec q k) as [->|N]; [|rewrite F by auto; now apply advanced_same].
  destruct (Nat.lt_ge_cases k (length (channels st))).
  - apply advanced_reseqed; auto.
  - rewrite !chan_oob by lia. now apply advanced_same.
Qed.
Lemma adv_set st k c : seq c = seq (chan st k) -> advanced_all 0 st (set_chan st k c).
Proof.
  intros E. split; [apply nchan_set_chan|]. intros q. apply advanced_same.
  destruct (Nat.eq_dec k q) as [->|N]; [|now rewrite chan_set_neq].
  destruct (Nat.lt_ge_cases q (length (channels st))); [now rewrite chan_set_eq|].
  now rewrite !chan_oob by (rewrite ?nchan_set_chan; auto).
Qed.
Lemma adv_le a b st st' : (a <= b)%N -> advanced_all a st st' -> advanced_all b st st'.
Proof. intros L [H1 H2]. split; auto. intros q. eapply advanced_le; eauto. Qed.
Lemma adv_enabled m st e st' : advanced_all m (set_enabled st e) st' -> advanced_all m st st'.
Proof. intros H. exact H. Qed.

Lemma adv_update s b s' : update_enabled pc draw s = (b, s') -> advanced_all 1 s s'.
Proof.
  intros H. apply update_enabled_spec in H. destruct H as (L & _ & _ & F & R). destruct b.
  - apply adv_reseq_all; auto.
  - destruct F as [F _]; auto. split; auto. intros q. apply advanced_same. unfold chan. now rewrite F.
Qed.
Lemma adv_recv_update a k s s' b r : recv_update pc draw a k s = (s', b, r) -> advanced_all 2 s s'.
Proof.
  unfold recv_update. destruct (update_enabled pc draw s) as [b2 s2] eqn:EU. apply adv_update in EU.
  destruct (_ && _); intros H; injection H as <- <- <-; [|eapply adv_le; [|exact EU]; lia].
  change 2%N with (1 + (1 + 0))%N. eapply advanced_all_trans; [exact EU|].
  eapply advanced_all_trans; [apply adv_seq|]. now apply adv_set.
Qed.
Lemma adv_recv_adj pkt k s : advanced_all 1 s (recv_adj draw pkt k s).
Proof.
  unfold recv_adj. destruct (negb _); [|apply advanced_all_refl].
  assert (A : advanced_all 0 s (set_chan s k (with_adj (chan s k) (src_seq pkt)))) by now apply adv_set.
  destruct (_ && _); [|eapply adv_le; [|exact A]; lia].
  change 1%N with (0 + 1)%N. eapply advanced_all_trans; [exact A|]. apply adv_seq.
Qed.
Lemma adv_recv_priority pkt k s b r s' b' r' : recv_priority draw pkt k s b r = (s', b', r') -> advanced_all 1 s s'.
Proof.
  unfold recv_priority. destruct (negb (enabled s =? 0)%N).
  - destruct (pen pkt =? enabled s)%N.
    { intros H; injection H as <- <- <-. destruct (CMD_enable_frame draw s) as (L & _ & _ & R).
      apply adv_reseq_all; auto. }
    destruct (_ && _); intros H; injection H as <- <- <-; [apply adv_seq|apply advanced_all_refl].
  - destruct (eq_seq _ _); [|intros H; injection H as <- <- <-; apply advanced_all_refl].
    assert (A : advanced_all 0 s (set_chan s k (with_ack (chan s k) true))) by now apply adv_set.
    destruct r; [intros H; injection H as <- <- <-; eapply adv_le; [|exact A]; lia|].
    destruct (reply _); intros H; injection H as <- <- <-; [eapply adv_le; [|exact A]; lia|].
    eapply (adv_le (0 + 0)); [lia|]. eapply advanced_all_trans; [exact A|]. now apply adv_set.
Qed.
Lemma adv_recv_ack pkt k s : advanced_all 0 s (recv_ack pkt k s).
Proof. unfold recv_ack. destruct (_ && _); [now apply adv_set|apply advanced_all_refl]. Qed.

(** Five steps of a sequence number never return to the start. *)
Lemma advanced_new c c' c'' : (sidx (seq c) < two16)%N -> advanced 4 c c' -> reseqed c' c'' -> seq c'' <> seq c.
Proof.
  intros B (n & Hn & E) (E' & _) C. rewrite C in E'.
  assert (Q : (sidx (seq c) = (sidx (seq c) + (n + 1)) mod two16)%N).
  { rewrite E' at 1. rewrite N.add_assoc, <- (N.add_mod_idemp_l (sidx (seq c) + n)), <- E, N.add_mod_idemp_l;
      auto using two16_pos. }
  destruct (N.lt_ge_cases (sidx (seq c) + (n + 1)) two16) as [H|H].
  - rewrite N.mod_small in Q by auto. lia.
  - assert (M : ((sidx (seq c) + (n + 1)) mod two16 = sidx (seq c) + (n + 1) - two16)%N).
    { symmetry. apply (N.mod_unique _ _ 1); unfold two16 in *; lia. }
    rewrite M in Q. unfold two16 in *. lia.
Qed.

(** * Acting *)
Lemma act_loop_actions : forall fuel s s' out, act_loop pc draw fuel s = Some (s', out) ->
  actions pc (values s) out (values s') /\ exists c, action_assign pc c (values s') = values s'.
Proof.
  induction fuel as [|f IH]; intros s s' out H; cbn [act_loop] in H; [discriminate|].
  destruct (eq_values _ _) eqn:E.
  - injection H as <- <-. split; [constructor|]. apply eq_values_spec in E. eauto.
  - destruct (act_loop pc draw f _) as [[s2 o2]|] eqn:A; [|discriminate]. injection H as <- <-.
    destruct (IH _ _ _ A) as (C & En). split; [|exact En]. constructor; [|exact C].
    intros Q. apply eq_values_spec in Q. congruence.
Qed.

Lemma handle_recv_acts fuel pkt k st st' out a b :
  (k < length (channels st))%nat -> handle_recv pc draw fuel pkt k st = Some (st', out) ->
  In (Hook a b) out ->
  dst_seq pkt = seq (chan st k) /\
  (forall q, (q < length (channels st))%nat -> reads_pos pc q 0 ->
     enabled st <> 0%N /\ enabled st <> all_ones /\
     (adj_acknowledged (chan st q) = true \/ q = k /\ (pen pkt < enabled st)%N)) /\
  (exists hooks sends, out = hooks ++ sends /\
     actions pc (snd (cache pc k 0 (pvals pkt) (values st))) hooks (values st') /\
     (forall x y, ~ In (Hook x y) sends)) /\
  (exists c, action_assign pc c (values st') = values st') /\
  enabled st' = 0%N /\ length (channels st') = length (channels st) /\
  (forall q, (q < length (channels st))%nat ->
     adj_acknowledged (chan st' q) = false /\
     ((sidx (seq (chan st q)) < two16)%N -> seq (chan st' q) <> seq (chan st q)) /\
     exists p, In (Send q p) out /\ pen p = 0%N /\ src_seq p = seq (chan st' q) /\
       carries pc st' q p).
Proof.
  intros Hk H HIn. unfold handle_recv in H.
  destruct (eq_seq (dst_seq pkt) (seq (chan st k))) eqn:EQ; cbn [negb] in H.
  2: { unfold recv_stranger in H. destruct (_ && _) in H; injection H as <- <-.
       - destruct HIn.
       - destruct HIn as [HIn|[]]; discriminate. }
  apply eq_seq_spec in EQ. split; [exact EQ|].
  destruct (cache pc k 0 (pvals pkt) (values st)) as [acted x] eqn:EC. cbn [snd].
  pose proof (traced_ack pkt k st x Hk) as T1.
  pose proof (adv_recv_ack pkt k (set_values st x)) as D1.
  destruct (recv_update pc draw acted k (recv_ack pkt k (set_values st x))) as [[s2 b2] r2] eqn:E2.
  destruct (traced_recv_update _ _ _ _ _ _ _ _ _ _ _ Hk T1 E2) as [T2 M2].
  apply adv_recv_update in E2.
  destruct (traced_recv_adj draw _ _ _ pkt k _ Hk T2) as [T3 M3].
  pose proof (adv_recv_adj pkt k s2) as D3.
  set (s3 := recv_adj draw pkt k s2) in *. clearbody s3.
  destruct (recv_priority draw pkt k s3 b2 (recv_reply pkt k s3 r2)) as [[s4 b4] r4] eqn:E4.
  pose proof (adv_recv_priority _ _ _ _ _ _ _ _ E4) as D4.
  apply (traced_recv_priority draw _ _ _ _ _ _ _ _ _ _ _ Hk T3) in E4; [|congruence]. destruct E4 as [T4 M4].
  assert (D : advanced_all 4 st s4).
  { change 4%N with (0 + (2 + (1 + 1)))%N. eapply (advanced_all_trans 0); [exact D1|].
    eapply advanced_all_trans; [exact E2|]. eapply advanced_all_trans; [exact D3|exact D4]. }
  clear D1 E2 D3 D4 T1 T2 T3 M2 M3.
  unfold recv_finish in H. destruct (negb (enabled s4 =? 0)%N && all_adj_acknowledged pc s4) eqn:CA.
  2: { exfalso. destruct b4.
       - unfold CMD_send_all in H. assert (H' : forall X Y : State * list effect, Some X = Some Y -> X = Y) by congruence.
         apply H', send_loop_frame in H. destruct H as (_ & _ & _ & _ & S & _). eapply sends_no_hook; eauto.
       - destruct r4; [|injection H as <- <-; contradiction].
         unfold CMD_send, CMD_send1 in H. injection H as <- <-. destruct HIn as [HIn|[]]; discriminate. }
  apply andb_true_iff in CA. destruct CA as [CA1 CA2]. apply negb_true_iff, N.eqb_neq in CA1.
  destruct (act_loop pc draw fuel s4) as [[s5 hooks]|] eqn:EA; [|discriminate].
  destruct (CMD_send_all pc (CMD_disable draw s5)) as [s6 sends] eqn:ES. injection H as <- <-.
  destruct T4 as (L4 & V4 & A4).
  destruct (act_loop_frame _ _ _ _ _ _ EA) as (C5 & E5 & Hs & _ & _).
  destruct (act_loop_actions _ _ _ _ EA) as (AC & FX).
  destruct (CMD_disable_frame draw s5) as (LD & ED & VD & RD).
  unfold CMD_send_all in ES. apply send_loop_frame in ES. destruct ES as (LS & ESn & VS & FS & SS & PS & AS).
  split.
  { intros q Hq R. destruct (A4 CA1 q Hq) as (A1 & A2 & A3); [apply all_acked with (pc := pc); auto; congruence|].
    split; [congruence|]. split; [congruence|]. exact A3. }
  split.
  { exists hooks, sends. split; auto. split; [|intros; eapply sends_no_hook; eauto].
    rewrite VS, VD, <- V4. exact AC. }
  split; [rewrite VS, VD; exact FX|].
  split; [congruence|]. split; [congruence|]. intros q Hq.
  destruct (FS q) as (F1 & F2 & F3). assert (Hq5 : (q < length (channels s5))%nat) by congruence.
  pose proof (RD q Hq5) as RQ. split; [rewrite F3; apply RQ|]. split.
  - intros B. rewrite F1. destruct D as [_ D]. assert (CH : chan s5 q = chan s4 q) by (unfold chan; congruence).
    rewrite CH in RQ. eapply advanced_new; eauto.
  - destruct (AS q) as [p Hp]; [apply in_seq; lia|auto|]. exists p. split; [apply in_app_iff; auto|].
    destruct (PS q p Hp) as (_ & P2 & P3 & _). split; [congruence|]. split; [congruence|].
    apply SS in Hp. destruct Hp as (q' & p' & Hp & C). injection Hp as <- <-.
    eapply carries_values; [|exact C]. congruence.
Qed.

(** Without an action only the copies the packet is about change. *)
Lemma handle_recv_quiet fuel pkt k st st' out :
  (k < length (channels st))%nat -> handle_recv pc draw fuel pkt k st = Some (st', out) ->
  (forall a b, ~ In (Hook a b) out) ->
  length (values st') = length (values st) /\
  forall v, (forall j, reads_pos pc k j -> vbl_of pc k j false <> v) -> nth v (values st') 0%nat = nth v (values st) 0%nat.
Proof.
  intros Hk H NH.
  assert (C : values st' = values st \/ values st' = snd (cache pc k 0 (pvals pkt) (values st))).
  { apply handle_recv_spec in H; auto. destruct H as [[_ H]|(_ & s & (L & V & _) & _ & E)].
    - left. unfold recv_stranger in H. destruct (_ && _) in H; injection H as <- <-; reflexivity.
    - right. destruct E as [f s1 hooks st' out E0 AA AL SA|st' out SA|st' out SA|].
      + destruct (act_loop_frame _ _ _ _ _ _ AL) as (_ & _ & HS & _ & NE).
        assert (hooks = []).
        { destruct hooks as [|h hooks]; auto. exfalso. destruct (HS h (or_introl eq_refl)) as (a & b & c & -> & _).
          apply (NH a b). cbn; auto. }
        subst hooks. destruct (CMD_disable_frame draw s1) as (_ & _ & VD & _).
        unfold CMD_send_all in SA. apply send_loop_frame in SA. destruct SA as (_ & _ & VS & _).
        destruct (act_loop_actions _ _ _ _ AL) as (AC & _). inversion AC. congruence.
      + unfold CMD_send_all in SA. apply send_loop_frame in SA. destruct SA as (_ & _ & VS & _). congruence.
      + unfold CMD_send in SA. apply CMD_send1_frame in SA. destruct SA as (_ & _ & VS & _). congruence.
      + congruence. }
  destruct C as [->| ->]; [auto|]. split; [apply cache_length|]. intros v Hv. apply cache_other.
  intros j _ R. apply Hv. intros i Hi. apply R. lia.
Qed.

(** * Markers *)
Lemma handle_recv_marker fuel pkt k st st' out :
  (k < length (channels st))%nat -> handle_recv pc draw fuel pkt k st = Some (st', out) ->
  dst_seq pkt = seq (chan st k) -> enabled st' <> all_ones.
Proof.
  intros Hk H D. apply handle_recv_spec in H; auto. destruct H as [[C _]|(_ & s & _ & M & E)]; [contradiction|].
  clear D. destruct E as [f s1 hooks st' out E0 AA AL SA|st' out SA|st' out SA|].
  - destruct (CMD_disable_frame draw s1) as (_ & ED & _).
    unfold CMD_send_all in SA. apply send_loop_frame in SA. destruct SA as (_ & ES & _).
    rewrite ES, ED. discriminate.
  - unfold CMD_send_all in SA. apply send_loop_frame in SA. destruct SA as (_ & ES & _). congruence.
  - unfold CMD_send in SA. apply CMD_send1_frame in SA. destruct SA as (_ & ES & _). congruence.
  - exact M.
Qed.
End X.

(** * Byte order *)
Lemma swap16_swap16 x : (x < two16)%N -> swap16 (swap16 x) = x.
Proof.
  unfold swap16, two16. intros H. pose proof (N.div_mod x 256 ltac:(lia)) as E.
  pose proof (N.mod_lt x 256 ltac:(lia)). assert (x / 256 < 256)%N by (apply N.div_lt_upper_bound; lia).
  rewrite (N.mod_small (x / 256) 256) by auto. set (a := (x mod 256)%N) in *. set (b := (x / 256)%N) in *.
  replace ((a * 256 + b) mod 256)%N with b by (apply (N.mod_unique _ _ a); lia).
  replace ((a * 256 + b) / 256)%N with a by (apply (N.div_unique _ _ _ b); lia).
  rewrite N.mod_small by auto. lia.
Qed.
Lemma swap16_lt x : (swap16 x < two16)%N.
Proof.
  unfold swap16, two16. pose proof (N.mod_lt x 256 ltac:(lia)). pose proof (N.mod_lt (x / 256) 256 ltac:(lia)). lia.
Qed.
Lemma swap32_swap32 x : (x < two32)%N -> swap32 (swap32 x) = x.
Proof.
  unfold swap32. intros H. pose proof (N.div_mod x two16 two16_pos) as E.
  pose proof (N.mod_lt x two16 two16_pos).
  assert (x / two16 < two16)%N by (apply N.div_lt_upper_bound; [apply two16_pos|exact H]).
  set (a := (x mod two16)%N) in *. set (b := (x / two16)%N) in *.
  pose proof (swap16_lt a). pose proof (swap16_lt b).
  replace ((swap16 a * two16 + swap16 b) mod two16)%N with (swap16 b) by (apply (N.mod_unique _ _ (swap16 a)); lia).
  replace ((swap16 a * two16 + swap16 b) / two16)%N with (swap16 a) by (apply (N.div_unique _ _ _ (swap16 b)); lia).
  rewrite !swap16_swap16 by auto. lia.
Qed.
Lemma memory16 little x : (x < two16)%N -> memory little 2 (hton16 little x) = big_endian 2 x.
Proof.
  intros H. assert (x / 256 < 256)%N by (apply N.div_lt_upper_bound; unfold two16 in *; lia).
  pose proof (N.mod_lt x 256 ltac:(lia)) as HM.
  destruct little; cbn [hton16 memory big_endian rev List.app little_endian]; [|reflexivity].
  unfold swap16. set (a := (x mod 256)%N) in *. rewrite (N.mod_small (x / 256) 256) by auto. set (b := (x / 256)%N) in *.
  replace ((a * 256 + b) mod 256)%N with b by (apply (N.mod_unique _ _ a); lia).
  replace ((a * 256 + b) / 256)%N with a by (apply (N.div_unique _ _ _ b); lia).
  rewrite (N.mod_small a 256) by auto. reflexivity.
Qed.
Lemma little_endian_halves hi lo : (lo < two16)%N ->
  little_endian 4 (hi * two16 + lo) = little_endian 2 lo ++ little_endian 2 hi.
Proof.
  unfold two16. intros H. cbn [little_endian List.app].
  replace (hi * 65536 + lo)%N with (lo + (hi * 256) * 256)%N by lia.
  rewrite N.mod_add, N.div_add by lia.
  replace (lo / 256 + hi * 256)%N with (lo / 256 + hi * 256)%N by lia.
  rewrite N.mod_add, N.div_add by lia.
  assert (E : (lo / 256 / 256 = 0)%N) by (rewrite N.div_div by lia; apply N.div_small; exact H).
  rewrite E, N.add_0_l. reflexivity.
Qed.
Lemma memory32 little x : (x < two32)%N -> memory little 4 (hton32 little x) = big_endian 4 x.
Proof.
  intros H. destruct little; cbn [hton32 memory]; [|reflexivity].
  assert (x / two16 < two16)%N by (apply N.div_lt_upper_bound; [apply two16_pos|exact H]).
  pose proof (N.mod_lt x two16 two16_pos).
  unfold swap32, big_endian. rewrite little_endian_halves by apply swap16_lt.
  rewrite (N.div_mod x two16 two16_pos) at 3. rewrite (N.mul_comm two16), little_endian_halves by auto.
  rewrite rev_app_distr.
  change (rev (little_endian 2 (x / two16))) with (big_endian 2 (x / two16)).
  change (rev (little_endian 2 (x mod two16))) with (big_endian 2 (x mod two16)).
  rewrite <- (memory16 true (x / two16)), <- (memory16 true (x mod two16)) by auto. reflexivity.
Qed.
