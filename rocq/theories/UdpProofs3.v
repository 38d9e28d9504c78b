(** Values a process acts on were current at the neighbour since its id changed. *)
From Coq Require Import List NArith Arith Bool Lia.
Import ListNotations.
From Verif Require Import UdpModel UdpSpec UdpProofs UdpProofs2.

Lemma reduce_id : forall ds x, Forall2 (fun v D => (v < D)%nat) x ds -> reduce_values ds x = x.
Proof.
  intros ds x H. induction H as [|v D x ds HvD H IH]; cbn; auto.
  destruct (Nat.eqb_spec D 0); [lia|]. destruct (Nat.leb_spec D v); [lia|]. now rewrite IH.
Qed.

Lemma in_domain_length d x : in_domain d x -> length x = length (doms d).
Proof. unfold in_domain. intros H. induction H; cbn; auto. Qed.

Lemma in_domain_nth d x v : in_domain d x -> (v < length (doms d))%nat -> (nth v x 0 < nth v (doms d) 0)%nat.
Proof.
  unfold in_domain. intros H. revert v. induction H as [|a D x ds Ha H IH]; intros v Hv; cbn in *; [lia|].
  destruct v; auto. apply IH. lia.
Qed.

Lemma in_domain_update d x w v : in_domain d x -> (v < nth w (doms d) 0)%nat -> in_domain d (update x w v).
Proof.
  unfold in_domain. intros H. revert w. induction H as [|a D x ds Ha H IH]; intros w Hv; cbn in *.
  - constructor.
  - destruct w; constructor; auto.
Qed.

Section E.
Variable pc : iden.
Variable draw : nat -> N.

Lemma fix_values st : in_domain pc (values st) -> (length (doms pc) <= nvbls pc)%nat ->
  values (fix_process_state pc st) = assume_assign pc (values st).
Proof. intros H L. cbn. rewrite firstn_all2 by auto. now rewrite reduce_id. Qed.

Lemma cache_in_domain k : forall pv i x, in_domain pc x ->
  (forall j, (i <= j < i + length pv)%nat -> (forall q, (i <= q <= j)%nat -> (vbl_of pc k q false < nvbls pc)%nat) ->
     (nth (j - i) pv 0 < nth (vbl_of pc k j false) (doms pc) 0)%nat) ->
  in_domain pc (snd (cache pc k i pv x)).
Proof.
  induction pv as [|v pv IH]; intros i x D H; cbn; auto.
  destruct (Nat.leb_spec (nvbls pc) (vbl_of pc k i false)); auto.
  specialize (IH (S i) (update x (vbl_of pc k i false) v)).
  destruct (cache pc k (S i) pv _) as [b x']. cbn [snd] in *. apply IH.
  - apply in_domain_update; auto. specialize (H i). rewrite Nat.sub_diag in H. apply H; cbn; [lia|].
    intros q Hq. now replace q with i by lia.
  - intros j Hj B. replace (nth (j - S i) pv 0)%nat with (nth (j - i) (v :: pv) 0)%nat.
    + apply H; cbn; [lia|]. intros q Hq. destruct (Nat.eq_dec q i) as [->|]; auto. apply B; lia.
    + replace (j - i)%nat with (S (j - S i)) by lia. reflexivity.
Qed.

(** What one event of a process tells about its new state [st'], where x are
    the values after reading the packet. *)
Record outcome (nch : nat) (st : State) (accepted : nat -> Prop) (x : list nat)
    (st' : State) (out : list effect) : Prop := {
  oc_len : length (channels st') = nch;
  oc_ack : enabled st' <> 0%N -> forall q, (q < nch)%nat -> adj_acknowledged (chan st' q) = true ->
      seq (chan st' q) = seq (chan st q) /\
      (enabled st <> 0%N /\ adj_acknowledged (chan st q) = true \/ accepted q);
  oc_hook : forall a b, In (Hook a b) out -> forall q, (q < nch)%nat -> reads_pos pc q 0 ->
      (enabled st <> 0%N /\ adj_acknowledged (chan st q) = true \/ accepted q);
  oc_val : forall P : list nat -> Prop, P x -> (forall c y, P y -> P (action_assign pc c y)) ->
      P (values st') /\ forall a b, In (Hook a b) out -> P a;
  oc_send : forall k p, In (Send k p) out -> (k < nch)%nat /\ carries pc st' k p }.

Lemma all_acked s : all_adj_acknowledged pc s = true ->
  forall q, (q < length (channels s))%nat -> reads_pos pc q 0 -> adj_acknowledged (chan s q) = true.
Proof.
  unfold all_adj_acknowledged. intros H q Hq R. rewrite forallb_forall in H.
  specialize (H q). rewrite in_seq in H. specialize (H ltac:(lia)).
  apply orb_true_iff in H. destruct H as [H|H]; auto. apply negb_true_iff in H.
  unfold reads in H. apply Nat.ltb_ge in H. specialize (R 0%nat). lia.
Qed.

Lemma sends_no_hook st out a b : sends_from pc st out -> ~ In (Hook a b) out.
Proof. intros S C. apply S in C. destruct C as (? & ? & C & _). discriminate. Qed.

Lemma ending_outcome st pkt k x s st' out :
  (k < length (channels st))%nat -> dst_seq pkt = seq (chan st k) ->
  traced st (grant_of pkt k st) x s -> ending pc draw k s st' out ->
  outcome (length (channels st)) st (fun q => q = k) x st' out.
Proof.
  intros Hk HD (L & V & A) H.
  assert (A' : enabled s <> 0%N -> forall q, (q < length (channels st))%nat -> adj_acknowledged (chan s q) = true ->
      seq (chan s q) = seq (chan st q) /\ (enabled st <> 0%N /\ adj_acknowledged (chan st q) = true \/ q = k)).
  { intros E q Hq C. destruct (A E q Hq C) as (A1 & A2 & A3). split; auto.
    destruct A3 as [A3|[-> A3]]; auto. left. split; auto. congruence. }
  clear A. inversion H; subst.
  - (* acted *)
    rename H0 into E, H1 into AA, H2 into AL, H3 into SA.
    destruct (act_loop_frame _ _ _ _ _ _ AL) as (C1 & E1 & Hs & P1 & _).
    destruct (CMD_disable_frame draw s1) as (LD & ED & VD & RD).
    unfold CMD_send_all in SA. apply send_loop_frame in SA. destruct SA as (LS & ES & VS & FS & SS & PS & _).
    constructor.
    + congruence.
    + intros N. congruence.
    + intros a b _ q Hq R. apply (A' E q Hq). apply all_acked; auto. congruence.
    + intros P PX PA. destruct (P1 P) as [Q1 Q2]; auto. split; [congruence|].
      intros a b HI. apply in_app_iff in HI. destruct HI as [HI|HI]; [eauto|].
      exfalso. eapply sends_no_hook; eauto.
    + intros q p HI. apply in_app_iff in HI. destruct HI as [HI|HI].
      * apply Hs in HI. destruct HI as (? & ? & ? & HI & _). discriminate.
      * split; [destruct (PS q p HI) as (K & _); apply in_seq in K; rewrite C1 in LD; lia|].
        apply SS in HI. destruct HI as (q' & p' & HI & C). injection HI as <- <-.
        eapply carries_values; [|exact C]. congruence.
  - (* broadcast *)
    unfold CMD_send_all in H0. apply send_loop_frame in H0. destruct H0 as (LS & ES & VS & FS & SS & PS & _).
    constructor.
    + congruence.
    + intros N q Hq C. destruct (FS q) as (F1 & F2 & F3). rewrite F1. rewrite ES in N. rewrite F3 in C. auto.
    + intros a b HI. exfalso. eapply sends_no_hook; eauto.
    + intros P PX PA. split; [congruence|]. intros a b HI. exfalso. eapply sends_no_hook; eauto.
    + intros q p HI. split; [destruct (PS q p HI) as (K & _); apply in_seq in K; lia|].
      apply SS in HI. destruct HI as (q' & p' & HI & C). injection HI as <- <-.
      eapply carries_values; [|exact C]. congruence.
  - (* reply *)
    unfold CMD_send in H0. apply CMD_send1_frame in H0. destruct H0 as (LS & ES & VS & FS & p & -> & C & _).
    constructor.
    + congruence.
    + intros N q Hq K. destruct (FS q) as (F1 & F2 & F3). rewrite F1. rewrite ES in N. rewrite F3 in K. auto.
    + intros a b [HI|[]]; discriminate.
    + intros P PX PA. split; [congruence|]. intros a b [HI|[]]; discriminate.
    + intros q p' [HI|[]]. injection HI as <- <-. split; [exact Hk|]. eapply carries_values; [|exact C]. congruence.
  - constructor; auto; try contradiction.
    intros P PX PA. split; [congruence|contradiction].
Qed.

Lemma stranger_frame pkt k st st' out : recv_stranger pc pkt k st = (st', out) -> length (pvals pkt) = nvbls pc ->
  length (channels st') = length (channels st) /\ values st' = values st /\ enabled st' = enabled st /\
  (forall q, seq (chan st' q) = seq (chan st q) /\ adj_seq (chan st' q) = adj_seq (chan st q) /\
     adj_acknowledged (chan st' q) = adj_acknowledged (chan st q) /\
     n_timeout_skips (chan st' q) = n_timeout_skips (chan st q)) /\
  (forall q, q <> k -> chan st' q = chan st q) /\
  (out = [] \/ exists p, out = [Send k p] /\ carries pc st k p /\ src_seq p = seq (chan st k) /\ dst_seq p = src_seq pkt /\
     (pen p = enabled st \/ pen p = all_ones)).
Proof.
  intros H LP. unfold recv_stranger in H.
  assert (SC : forall b q, seq (chan (set_chan st k (with_reply (chan st k) b)) q) = seq (chan st q) /\
     adj_seq (chan (set_chan st k (with_reply (chan st k) b)) q) = adj_seq (chan st q) /\
     adj_acknowledged (chan (set_chan st k (with_reply (chan st k) b)) q) = adj_acknowledged (chan st q) /\
     n_timeout_skips (chan (set_chan st k (with_reply (chan st k) b)) q) = n_timeout_skips (chan st q)).
  { intros b q. destruct (Nat.eq_dec k q) as [->|Hn].
    - destruct (Nat.lt_ge_cases q (length (channels st))).
      + rewrite chan_set_eq by auto. auto.
      + rewrite !chan_oob by (rewrite ?nchan_set_chan; auto). auto.
    - rewrite chan_set_neq by auto. auto. }
  assert (SN : forall b q, q <> k -> chan (set_chan st k (with_reply (chan st k) b)) q = chan st q).
  { intros b q Hq. apply chan_set_neq; auto. }
  destruct (_ && _); injection H as <- <-.
  - split; [apply nchan_set_chan|]. split; [reflexivity|]. split; [reflexivity|]. split; [apply SC|]. split; [apply SN|]. auto.
  - split; [apply nchan_set_chan|]. split; [reflexivity|]. split; [reflexivity|]. split; [apply SC|]. split; [apply SN|].
    right. eexists. split; [reflexivity|]. split; [apply carries_fill; auto|]. cbn.
    repeat split; auto. destruct (_ && _); auto.
Qed.

End E.

(** * Histories *)
Section H.
Variable s : system.
Variable nchan : nat -> nat.
Hypothesis WF : well_formed s nchan.
Variable L : nat.
Variable G : nat -> net.
Variable ev : nat -> event.
Variable out : nat -> nat * list effect.
Hypothesis HI : history s L G ev out.
Hypothesis START : clean_start s nchan (G 0).
Hypothesis FRESH : fresh_ids L G.

Definition since (l i k : nat) (m : nat) : Prop :=
  forall t, (m <= t <= l)%nat -> id_of (G t) i k = id_of (G l) i k.
Definition snapshot (m i k : nat) (f : nat -> nat) : Prop :=
  forall j, reads_pos (node s i) k j -> f j = neighbour_value s (G m) i k j.
Definition copies (i : nat) (x : list nat) (k j : nat) : nat := nth (vbl_of (node s i) k j false) x 0%nat.

Definition good_states (l : nat) : Prop :=
  length (proc (G l)) = nproc s /\
  forall i, (i < nproc s)%nat ->
    length (channels (pst (G l) i)) = nchan i /\ in_domain (node s i) (values (pst (G l) i)).
Definition good_packets (l : nat) : Prop :=
  forall i k p, In (i, k, p) (flight (G l)) ->
    (i < nproc s)%nat /\ (k < nchan i)%nat /\ length (pvals p) = nvbls (node s i) /\
    exists m, (m <= l)%nat /\ snapshot m i k (fun j => nth j (pvals p) 0%nat) /\
      (dst_seq p = id_of (G l) i k -> since l i k m).
Definition good_copies (l : nat) : Prop :=
  forall i k, (i < nproc s)%nat -> (k < nchan i)%nat -> enabled (pst (G l) i) <> 0%N ->
    adj_acknowledged (chan (pst (G l) i) k) = true ->
    exists m, (m <= l)%nat /\ snapshot m i k (copies i (values (pst (G l) i)) k) /\ since l i k m.

(** What an event of process i does to the copies it keeps; [acc] is the channel
    and the packet it accepted, if any. *)
Record moved (l i : nat) (acc : option (nat * Packet)) (st' : State) (o : list effect) : Prop := {
  mv_len : length (channels st') = nchan i;
  mv_dom : in_domain (node s i) (values st');
  mv_keep : forall k j, (k < nchan i)%nat -> reads_pos (node s i) k j -> (forall p, acc <> Some (k, p)) ->
      copies i (values st') k j = copies i (values (pst (G l) i)) k j /\
        (forall a b, In (Hook a b) o -> copies i a k j = copies i (values (pst (G l) i)) k j);
  mv_copy : forall k p, acc = Some (k, p) -> forall j, reads_pos (node s i) k j ->
      copies i (values st') k j = nth j (pvals p) 0%nat /\
        (forall a b, In (Hook a b) o -> copies i a k j = nth j (pvals p) 0%nat);
  mv_ack : enabled st' <> 0%N -> forall q, (q < nchan i)%nat -> adj_acknowledged (chan st' q) = true ->
      seq (chan st' q) = id_of (G l) i q /\
      (enabled (pst (G l) i) <> 0%N /\ adj_acknowledged (chan (pst (G l) i) q) = true \/ exists p, acc = Some (q, p));
  mv_hook : forall a b, In (Hook a b) o -> forall q, (q < nchan i)%nat -> reads_pos (node s i) q 0 ->
      (enabled (pst (G l) i) <> 0%N /\ adj_acknowledged (chan (pst (G l) i) q) = true \/ exists p, acc = Some (q, p));
  mv_send : forall k p, In (Send k p) o -> (k < nchan i)%nat /\ carries (node s i) st' k p }.

Lemma chan_fix i st q : chan (fix_process_state (node s i) st) q = chan st q.
Proof. reflexivity. Qed.

Lemma packet_in_domain l i k p : (forall m, (m <= l)%nat -> good_states m) -> good_packets l ->
  In (i, k, p) (flight (G l)) -> forall j, reads_pos (node s i) k j ->
  (nth j (pvals p) 0 < nth (vbl_of (node s i) k j false) (doms (node s i)) 0)%nat.
Proof.
  intros GS GP HIn j R. destruct (GP i k p HIn) as (Hi & Hk & LP & m & Hm & SN & _).
  rewrite (SN j R). unfold neighbour_value.
  destruct WF as (W1 & W2 & W3 & W4 & W5 & W6). destruct (W4 i k j Hi Hk R) as (R1 & R2 & R3).
  destruct (W1 i k Hi Hk) as (i' & k' & EP & Hi' & Hk' & EP'). rewrite EP in R3. rewrite EP.
  destruct R3 as [R3 R4]. rewrite R4. apply in_domain_nth; [apply GS; auto|].
  destruct (Nat.lt_ge_cases (vbl_of (node s i') k' j true) (length (doms (node s i')))); auto.
  rewrite (nth_overflow (doms (node s i'))) in R4 by auto.
  exfalso. pose proof (in_domain_nth (node s i) (values (pst (G m) i)) (vbl_of (node s i) k j false)) as Q.
  rewrite R4 in Q. destruct (GS m Hm) as [_ GS']. specialize (Q (proj2 (GS' i Hi)) R2). lia.
Qed.

Lemma moved_timeout l i st' o : (i < nproc s)%nat -> good_states l ->
  on_timeout (node s i) (coin s i) (pst (G l) i) = (st', o) -> moved l i None st' o.
Proof.
  intros Hi (LP & GS) H. destruct (GS i Hi) as (LC & D). unfold on_timeout in H. apply handle_timeout_spec in H.
  destruct H as (L1 & V1 & M1 & A1 & S1 & S2).
  destruct WF as (W1 & W2 & W3 & W4 & W5 & W6). destruct (W6 i _ Hi D) as (Wa & Wb & Wc).
  rewrite fix_values in V1 by auto.
  assert (NH : forall a b, ~ In (Hook a b) o) by (intros a b; eapply sends_no_hook; eauto).
  constructor.
  - cbn in L1. congruence.
  - rewrite V1. exact Wa.
  - intros k j Hk R _. unfold copies. rewrite V1. split; [apply Wc; auto|].
    intros a b C; exfalso; eapply NH; eauto.
  - discriminate.
  - intros E q Hq A. destruct (A1 E q) as (B1 & B2 & B3); auto. { cbn. rewrite LC. auto. }
    split; [exact B2|]. left. split; [cbn in B1; congruence|exact B3].
  - intros a b C. exfalso. eapply NH; eauto.
  - intros k p C. split; [rewrite <- LC; eapply S2; eauto|]. apply S1 in C. destruct C as (k' & p' & C & D'). injection C as <- <-. exact D'.
Qed.

Lemma moved_packet l i k p st' o : (i < nproc s)%nat -> (k < nchan i)%nat -> good_states l ->
  length (pvals p) = nvbls (node s i) ->
  (forall j, reads_pos (node s i) k j ->
     (nth j (pvals p) 0 < nth (vbl_of (node s i) k j false) (doms (node s i)) 0)%nat) ->
  on_packet (node s i) (coin s i) (fuel s) p k (pst (G l) i) = Some (st', o) ->
  moved l i (if eq_seq (dst_seq p) (id_of (G l) i k) then Some (k, p) else None) st' o.
Proof.
  intros Hi Hk (LP & GS) LV DV H. destruct (GS i Hi) as (LC & D). unfold on_packet in H.
  set (st := fix_process_state (node s i) (pst (G l) i)) in *.
  destruct WF as (W1 & W2 & W3 & W4 & W5 & W6). destruct (W6 i _ Hi D) as (Wa & Wb & Wc).
  assert (VS : values st = assume_assign (node s i) (values (pst (G l) i))) by (apply fix_values; auto).
  assert (CP : forall q j, (q < nchan i)%nat -> reads_pos (node s i) q j ->
     copies i (values st) q j = copies i (values (pst (G l) i)) q j).
  { intros q j Hq R. unfold copies. rewrite VS. apply Wc; auto. }
  assert (DS : in_domain (node s i) (values st)) by (rewrite VS; exact Wa).
  assert (LS : length (channels st) = nchan i) by exact LC.
  assert (LX : length (values st) = length (doms (node s i))) by (apply in_domain_length; exact DS).
  assert (CE : forall q, chan st q = chan (pst (G l) i) q) by reflexivity.
  assert (EE : enabled st = enabled (pst (G l) i)) by reflexivity.
  clearbody st.
  apply handle_recv_spec in H; [|rewrite LS; auto].
  destruct H as [[NE H]|[EQ (s1 & T & M & En)]].
  - apply stranger_frame in H; auto. destruct H as (L1 & V1 & E1 & F1 & F2 & O1).
    assert (NE' : eq_seq (dst_seq p) (id_of (G l) i k) = false).
    { destruct (eq_seq _ _) eqn:C; auto. apply eq_seq_spec in C. exfalso. apply NE. unfold id_of in C. rewrite CE. exact C. }
    rewrite NE'.
    assert (NH : forall a b, ~ In (Hook a b) o).
    { intros a b C. destruct O1 as [->|(p' & -> & _)]; [contradiction|]. destruct C as [C|[]]; discriminate. }
    constructor.
    + congruence.
    + rewrite V1. exact DS.
    + intros q j Hq R _. rewrite V1. split; [auto|]. intros a b C. exfalso. eapply NH; eauto.
    + discriminate.
    + intros E q Hq A. destruct (F1 q) as (B1 & B2 & B3 & B4). rewrite B1, CE. split; [reflexivity|].
      left. split; [congruence|]. rewrite <- CE, <- B3. exact A.
    + intros a b C. exfalso. eapply NH; eauto.
    + intros q p' C. destruct O1 as [->|(p'' & -> & C' & _)]; [contradiction|].
      destruct C as [C|[]]. injection C as <- <-. split; [exact Hk|]. eapply carries_values; [|exact C']. auto.
  - set (x := snd (cache (node s i) k 0 (pvals p) (values st))) in *.
    assert (X1 : in_domain (node s i) x).
    { apply cache_in_domain; auto. intros j Hj R. rewrite Nat.sub_0_r. apply DV. intros q Hq. apply R; lia. }
    assert (X2 : forall j, reads_pos (node s i) k j -> copies i x k j = nth j (pvals p) 0%nat).
    { intros j R. destruct (W4 i k j Hi Hk R) as (R1 & R2 & _). unfold copies, x.
      rewrite cache_read; auto; try lia.
      - now rewrite Nat.sub_0_r.
      - intros q Hq. apply R. lia.
      - intros q Hq R'. intros C. destruct (W5 i k q k j) as [_ C']; auto; [|lia].
        intros r Hr. apply R'. lia. }
    assert (X3 : forall q j, (q < nchan i)%nat -> q <> k -> reads_pos (node s i) q j ->
        copies i x q j = copies i (values st) q j).
    { intros q j Hq Hn R. unfold copies, x. apply cache_other. intros j' _ R' C.
      destruct (W5 i k j' q j) as [C' _]; auto. intros r Hr. apply R'; lia. }
    clearbody x.
    pose proof (ending_outcome _ _ _ _ _ _ _ _ _ ltac:(rewrite LS; exact Hk) EQ T En) as OC.
    assert (PD : forall c y, in_domain (node s i) y -> in_domain (node s i) (action_assign (node s i) c y)).
    { intros c y Dy. apply W6; auto. }
    destruct OC as [O1 O2 O3 O4 O5].
    destruct (O4 _ X1 PD) as [Y1 Y2].
    assert (Y3 : forall q j v, (q < nchan i)%nat -> reads_pos (node s i) q j -> copies i x q j = v ->
        copies i (values st') q j = v /\ forall a b, In (Hook a b) o -> copies i a q j = v).
    { intros q j v Hq R E. destruct (O4 (fun y => in_domain (node s i) y /\ copies i y q j = v)) as [Z1 Z2]; auto.
      - intros c y [Dy Ey]. split; auto. unfold copies in *. destruct (W6 i y Hi Dy) as (_ & _ & K).
        destruct (K q j Hq R) as [_ K']. rewrite K'. exact Ey.
      - split; [apply Z1|]. intros a b C. apply (Z2 a b C). }
    assert (EQ' : eq_seq (dst_seq p) (id_of (G l) i k) = true) by (apply eq_seq_spec; unfold id_of; rewrite <- CE; exact EQ).
    rewrite EQ'. constructor.
    + congruence.
    + exact Y1.
    + intros q j Hq R NA. assert (Hn : q <> k) by (intros ->; apply (NA p); reflexivity).
      destruct (Y3 q j _ Hq R (eq_refl _)) as [Z1 Z2]. rewrite X3, CP in Z1 by auto. split; [exact Z1|].
      intros a b C. rewrite (Z2 a b C). rewrite X3, CP; auto.
    + intros q p' C j R. injection C as <- <-. apply Y3; auto.
    + intros E q Hq A. rewrite LS in O2. destruct (O2 E q Hq A) as (B1 & B2). rewrite B1, CE. split; [reflexivity|].
      rewrite EE, CE in B2. destruct B2 as [B2| ->]; eauto.
    + intros a b C q Hq R. rewrite LS in O3. specialize (O3 a b C q Hq R). rewrite EE, CE in O3.
      destruct O3 as [B2| ->]; eauto.
    + rewrite <- LS. exact O5.
Qed.

Lemma in_sent i o x p : In (x, p) (sent s i o) -> exists k, x = peer s i k /\ In (Send k p) o.
Proof.
  induction o as [|[k q|a b] o IH]; cbn; [contradiction| |].
  - intros [H|H]; [injection H as <- <-; eauto|]. destruct (IH H) as (k' & E & H'). eauto.
  - intros H. destruct (IH H) as (k' & E & H'). eauto.
Qed.
Lemma in_remove_nth {A} (n : nat) (l : list A) x : In x (remove_nth n l) -> In x l.
Proof.
  unfold remove_nth. intros H. apply in_app_iff in H. destruct H as [H|H].
  - rewrite <- (firstn_skipn n l). apply in_app_iff; auto.
  - rewrite <- (firstn_skipn (S n) l). apply in_app_iff; auto.
Qed.

Lemma pst_update g i st fl j : (i < length (proc g))%nat ->
  pst (mkNet (update (proc g) i st) fl) j = if (j =? i)%nat then st else pst g j.
Proof.
  intros Hi. unfold pst; cbn. destruct (Nat.eqb_spec j i) as [->|Hn]; [apply nth_update_eq; auto|].
  apply nth_update_neq; auto.
Qed.

(** One event, seen from outside. *)
Definition network_only (l : nat) : Prop :=
  proc (G (S l)) = proc (G l) /\ (forall x, In x (flight (G (S l))) -> In x (flight (G l))) /\ snd (out l) = [].
Definition process_event (l : nat) : Prop :=
  exists i st' o accepted, out l = (i, o) /\ (i < nproc s)%nat /\
    (forall j, pst (G (S l)) j = if (j =? i)%nat then st' else pst (G l) j) /\
    length (proc (G (S l))) = length (proc (G l)) /\
    (forall x, In x (flight (G (S l))) -> In x (flight (G l)) \/ In x (sent s i o)) /\
    moved l i accepted st' o /\
    (forall q p, accepted = Some (q, p) -> In (i, q, p) (flight (G l)) /\ dst_seq p = id_of (G l) i q).

Lemma event_cases l : (l < L)%nat -> (forall m, (m <= l)%nat -> good_states m) -> good_packets l ->
  network_only l \/ process_event l.
Proof.
  intros Hl GS GP. pose proof (HI l Hl) as H. pose proof (GS l (le_n _)) as GSl. destruct (ev l) as [i|n|n|n]; cbn [step] in H.
  - destruct (Nat.ltb_spec i (nproc s)) as [Hi|]; [|discriminate].
    destruct (on_timeout (node s i) (coin s i) (pst (G l) i)) as [st' o] eqn:E. injection H as H1 H2.
    right. exists i, st', o, None. rewrite <- H1, <- H2. split; [reflexivity|]. split; [exact Hi|].
    split; [intros j; apply pst_update; destruct GSl; congruence|]. split; [apply update_length|].
    split; [intros x Hx; apply in_app_iff; exact Hx|]. split; [|discriminate].
    apply moved_timeout; auto.
  - destruct (nth_error (flight (G l)) n) as [[[i k] p]|] eqn:EN; [|discriminate].
    apply nth_error_In in EN. destruct (GP i k p EN) as (Hi & Hk & LP & _).
    destruct (on_packet (node s i) (coin s i) (fuel s) p k (pst (G l) i)) as [[st' o]|] eqn:E; [|discriminate].
    injection H as H1 H2. right. exists i, st', o, (if eq_seq (dst_seq p) (id_of (G l) i k) then Some (k, p) else None).
    rewrite <- H1, <- H2. split; [reflexivity|]. split; [exact Hi|].
    split; [intros j; apply pst_update; destruct GSl; congruence|]. split; [apply update_length|].
    split.
    { intros x Hx. cbn in Hx. apply in_app_iff in Hx. destruct Hx as [Hx|Hx]; auto. left. eapply in_remove_nth; eauto. }
    split.
    2: { intros q p'. destruct (eq_seq _ _) eqn:EQ; [|discriminate]. intros C. injection C as <- <-.
         apply eq_seq_spec in EQ. auto. }
    apply moved_packet; auto. intros j R. eapply packet_in_domain; eauto.
  - destruct (nth_error (flight (G l)) n) as [x|] eqn:EN; [|discriminate]. injection H as H1 H2. left.
    apply nth_error_In in EN. split; [rewrite <- H1; reflexivity|]. split; [|rewrite <- H2; reflexivity].
    rewrite <- H1. cbn. intros y Hy. apply in_app_iff in Hy. destruct Hy as [Hy|[<-|[]]]; auto.
  - destruct (nth_error (flight (G l)) n) as [x|] eqn:EN; [|discriminate]. injection H as H1 H2. left.
    split; [rewrite <- H1; reflexivity|]. split; [|rewrite <- H2; reflexivity].
    rewrite <- H1. cbn. intros y Hy. eapply in_remove_nth; eauto.
Qed.

Lemma since_extend l i k m : (m <= l)%nat -> since l i k m -> id_of (G (S l)) i k = id_of (G l) i k -> since (S l) i k m.
Proof.
  intros Hm S E t Ht. destruct (Nat.eq_dec t (Datatypes.S l)) as [->|]; auto. rewrite E. apply S. lia.
Qed.
Lemma since_now l i k : since l i k l.
Proof. intros t Ht. replace t with l by lia. reflexivity. Qed.

Lemma SeqId_dec (a b : SeqId) : a = b \/ a <> b.
Proof.
  destruct (eq_seq a b) eqn:E; [left; apply eq_seq_spec; auto|].
  right. intros C. apply eq_seq_spec in C. congruence.
Qed.

Lemma old_packet l i k p m : (l < L)%nat -> (m <= l)%nat -> In (i, k, p) (flight (G l)) ->
  (dst_seq p = id_of (G l) i k -> since l i k m) -> dst_seq p = id_of (G (S l)) i k -> since (S l) i k m.
Proof.
  intros Hl Hm HIn S E. destruct (SeqId_dec (id_of (G (Datatypes.S l)) i k) (id_of (G l) i k)) as [Q|Q].
  - apply since_extend; auto. apply S. congruence.
  - exfalso. eapply FRESH; eauto.
Qed.

Lemma invariant l : (l <= L)%nat ->
  (forall m, (m <= l)%nat -> good_states m) /\ good_packets l /\ good_copies l.
Proof.
  induction l as [|l IH]; intros Hl.
  - destruct START as (F & LP & C). split; [|split].
    + intros m Hm. replace m with 0%nat by lia. split; auto. intros i Hi. destruct (C i Hi) as (C1 & C2 & _). auto.
    + intros i k p HIn. rewrite F in HIn. contradiction.
    + intros i k Hi Hk E A. destruct (C i Hi) as (_ & _ & C3). rewrite (C3 E k Hk) in A. discriminate.
  - destruct IH as (GS & GP & GC); [lia|]. pose proof (GS l (le_n _)) as (LP & GSl).
    destruct (event_cases l ltac:(lia) GS GP) as [(NP & NF & _)|(i & st' & o & acc & EO & Hi & PU & LU & FU & MV & AC)].
    + assert (PE : forall j, pst (G (S l)) j = pst (G l) j) by (intros; unfold pst; congruence).
      assert (IE : forall j k, id_of (G (S l)) j k = id_of (G l) j k) by (intros; unfold id_of; now rewrite PE).
      split; [|split].
      * intros m Hm. destruct (Nat.eq_dec m (S l)) as [->|]; [|apply GS; lia]. split; [congruence|].
        intros j Hj. rewrite PE. auto.
      * intros j k p HIn. destruct (GP j k p (NF _ HIn)) as (A & B & C & m & Hm & SN & SI).
        repeat (split; [assumption|]). exists m. split; [lia|]. split; [exact SN|]. intros E.
        apply since_extend; auto. apply SI. rewrite <- IE. exact E.
      * intros j k Hj Hk E A. rewrite PE in *. destruct (GC j k Hj Hk E A) as (m & Hm & SN & SI).
        exists m. split; [lia|]. split; [exact SN|]. apply since_extend; auto.
    + destruct MV as [M1 M2 M3 M3' M4 M5 M6]. destruct WF as (W1 & W2 & W3 & W4 & W5 & W6).
      split; [|split].
      * intros m Hm. destruct (Nat.eq_dec m (S l)) as [->|]; [|apply GS; lia]. split; [congruence|].
        intros j Hj. rewrite PU. destruct (Nat.eqb_spec j i) as [->|]; auto.
      * intros j k p HIn. destruct (FU _ HIn) as [HF|HF].
        { destruct (GP j k p HF) as (A & B & C & m & Hm & SN & SI).
          repeat (split; [assumption|]). exists m. split; [lia|]. split; [exact SN|].
          apply old_packet with (p := p); auto; lia. }
        apply in_sent in HF. destruct HF as (q & EP & HS).
        destruct (M6 q p HS) as (Hq & C1 & C2).
        destruct (W1 i q Hi Hq) as (i' & k' & EP' & Hi' & Hk' & EB). rewrite EP' in EP. injection EP as -> ->.
        split; [auto|]. split; [auto|]. split; [rewrite C1; apply W2; auto|].
        exists (S l). split; [lia|]. split; [|intros _; apply since_now].
        intros x R. destruct (W4 i' k' x Hi' Hk' R) as (R1 & R2 & R3). rewrite EB in R3. destruct R3 as [R3 R4].
        rewrite C2; auto. 2: { rewrite (W2 i i') by auto. auto. }
        unfold neighbour_value. rewrite EB, PU, Nat.eqb_refl. reflexivity.
      * intros j k Hj Hk E A. rewrite PU in E, A. rewrite PU.
        destruct (Nat.eqb_spec j i) as [->|Hn].
        2: { destruct (GC j k Hj Hk E A) as (m & Hm & SN & SI). exists m. split; [lia|]. split; [exact SN|].
             apply since_extend; auto. unfold id_of. rewrite PU. destruct (Nat.eqb_spec j i); [contradiction|reflexivity]. }
        destruct (M4 E k Hk A) as (I1 & I2).
        assert (IE : id_of (G (S l)) i k = id_of (G l) i k).
        { unfold id_of at 1. now rewrite PU, Nat.eqb_refl. }
        assert (DEC : (exists p, acc = Some (k, p)) \/ (forall p, acc <> Some (k, p))).
        { destruct acc as [[k' p]|]; [|right; discriminate]. destruct (Nat.eq_dec k' k) as [->|]; [eauto|].
          right. intros p' C. congruence. }
        destruct DEC as [[p EA]|NA].
        { destruct (AC k p EA) as [HIn HD]. destruct (GP i k p HIn) as (_ & _ & _ & m & Hm & SN & SI).
          exists m. split; [lia|]. split; [|apply since_extend; auto].
          intros j R. rewrite <- (SN j R). apply (M3' k p EA j R). }
        destruct I2 as [[I2 I3]|[p C]]; [|exfalso; eapply NA; eauto].
        destruct (GC i k Hi Hk I2 I3) as (m & Hm & SN & SI). exists m. split; [lia|].
        split; [|apply since_extend; auto].
        intros j R. rewrite <- (SN j R). apply (M3 k j Hk R NA).
Qed.

Theorem regular l i x k : (l < L)%nat -> acts out l i x -> (k < nchan i)%nat -> reads_pos (node s i) k 0 ->
  exists m, (m <= l)%nat /\ snapshot m i k (copies i x k) /\ since l i k m.
Proof.
  intros Hl [EF [y HA]] Hk R0. destruct (invariant l ltac:(lia)) as (GS & GP & GC).
  destruct (event_cases l Hl GS GP) as [(NP & NF & NO)|(i' & st' & o & acc & EO & Hi & PU & LU & FU & MV & AC)].
  { rewrite NO in HA. contradiction. }
  rewrite EO in EF, HA. cbn in EF, HA. subst i'.
  destruct MV as [M1 M2 M3 M3' M4 M5 M6].
  assert (DEC : (exists p, acc = Some (k, p)) \/ (forall p, acc <> Some (k, p))).
  { destruct acc as [[k' p]|]; [|right; discriminate]. destruct (Nat.eq_dec k' k) as [->|]; [eauto|].
    right. intros p' C. congruence. }
  destruct DEC as [[p EA]|NA].
  - destruct (AC k p EA) as [HIn HD]. destruct (GP i k p HIn) as (_ & _ & _ & m & Hm & SN & SI).
    exists m. split; [lia|]. split; [|auto]. intros j R. rewrite <- (SN j R). apply (M3' k p EA j R) with (1 := HA).
  - destruct (M5 x y HA k Hk R0) as [[I2 I3]|[p C]]; [|exfalso; eapply NA; eauto].
    destruct (GC i k Hi Hk I2 I3) as (m & Hm & SN & SI). exists m. split; [lia|]. split; [|auto].
    intros j R. rewrite <- (SN j R). apply (M3 k j Hk R NA) with (1 := HA).
Qed.
End H.
