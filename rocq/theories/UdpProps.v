(** Properties of the UDP runtime: C45-C50, C60, C61. *)
From Coq Require Import List NArith ZArith Arith Bool Lia.
Import ListNotations.
From Verif Require Import UdpModel UdpSpec UdpProofs UdpProofs2 UdpProofs3 UdpRng UdpSample UdpProofs4 UdpProofs5.

(** * C45: sanitising *)
(** Whatever the memory contains, the values become what assume_assign makes of
    a list in which every variable is reduced modulo its domain size (so values
    in range stay), up to the first variable without a domain; nothing else of
    the state changes. *)
Theorem C45_sanitise_exact : forall pc st,
  exists y, values (fix_process_state pc st) = assume_assign pc y /\
    length y = length (values st) /\
    (forall i, (i < length (values st))%nat ->
       (forall j, (j <= i)%nat -> (j < nvbls pc)%nat /\ nth j (doms pc) 0 <> 0)%nat ->
       nth i y 0 = nth i (values st) 0 mod nth i (doms pc) 0)%nat /\
    (forall i j, (j <= i)%nat -> (nvbls pc <= j \/ nth j (doms pc) 0 = 0)%nat ->
       nth i y 0 = nth i (values st) 0)%nat /\
    enabled (fix_process_state pc st) = enabled st /\ channels (fix_process_state pc st) = channels st.
Proof.
  intros pc st. exists (reduce_values (firstn (nvbls pc) (doms pc)) (values st)).
  split; [reflexivity|]. split; [apply reduce_length|]. split; [|split; [|auto]].
  - intros i Hi H. rewrite reduce_some; auto.
    + rewrite nth_firstn. destruct (Nat.ltb_spec i (nvbls pc)); [reflexivity|]. specialize (H i). lia.
    + intros j Hj. destruct (H j Hj) as [H1 H2]. rewrite nth_firstn. destruct (Nat.ltb_spec j (nvbls pc)); [auto|lia].
  - intros i j Hj H. apply (reduce_none _ _ _ j); auto. rewrite nth_firstn.
    destruct (Nat.ltb_spec j (nvbls pc)); [lia|reflexivity].
Qed.
Print Assumptions C45_sanitise_exact.

(** Every event is handled in a state with all values in range, and in-range
    values are kept, when the generated assume_assign keeps the domains. *)
Theorem C45_in_range_before_event : forall pc st,
  (forall x, in_domain pc x -> in_domain pc (assume_assign pc x)) ->
  (length (doms pc) <= nvbls pc)%nat -> (forall i, (i < length (doms pc))%nat -> nth i (doms pc) 0 <> 0)%nat ->
  length (values st) = length (doms pc) ->
  in_domain pc (values (fix_process_state pc st)) /\
  (in_domain pc (values st) -> values (fix_process_state pc st) = assume_assign pc (values st)).
Proof.
  intros pc st HA HL HD HV. split; [|intros; apply fix_values; auto].
  destruct (C45_sanitise_exact pc st) as (y & -> & L & R & _). apply HA. unfold in_domain.
  assert (G : forall ds x, length x = length ds -> (forall i, (i < length ds)%nat -> nth i x 0 < nth i ds 0)%nat ->
            Forall2 (fun v D => (v < D)%nat) x ds).
  { induction ds as [|d ds IH]; intros [|v x] Hl H; cbn in Hl; try lia; [constructor|].
    constructor; [apply (H 0%nat); cbn; lia|]. apply IH; [lia|]. intros i Hi. apply (H (S i)). cbn; lia. }
  apply G; [congruence|]. intros i Hi. rewrite R.
  - apply Nat.mod_upper_bound; auto.
  - lia.
  - intros j Hj. split; [lia|]. apply HD. lia.
Qed.
Print Assumptions C45_in_range_before_event.

Example C45_example :
  let st := mkSt 0 [7; 2; 200]%nat [] 0 in
  values (fix_process_state color_node st) = [1; 2; 2]%nat /\
  in_domain color_node (values (fix_process_state color_node st)).
Proof. split; [reflexivity|]. repeat constructor. Qed.

(** * C46: stale packets *)
Theorem C46_stale_packet_harmless : forall pc draw fuel pkt k st st' out,
  (k < length (channels st))%nat -> length (pvals pkt) = nvbls pc ->
  dst_seq pkt <> seq (chan st k) ->
  on_packet pc draw fuel pkt k st = Some (st', out) ->
  values st' = values (fix_process_state pc st) /\ enabled st' = enabled st /\
  length (channels st') = length (channels st) /\
  (forall q, seq (chan st' q) = seq (chan st q) /\ adj_seq (chan st' q) = adj_seq (chan st q) /\
     adj_acknowledged (chan st' q) = adj_acknowledged (chan st q) /\
     n_timeout_skips (chan st' q) = n_timeout_skips (chan st q)) /\
  (forall q, q <> k -> chan st' q = chan st q) /\
  (out = [] \/ exists p, out = [Send k p] /\ carries pc st' k p /\
     src_seq p = seq (chan st k) /\ dst_seq p = src_seq pkt /\ (pen p = enabled st \/ pen p = all_ones)).
Proof.
  intros pc draw fuel pkt k st st' out Hk LP HD H. unfold on_packet, handle_recv in H.
  change (chan (fix_process_state pc st) k) with (chan st k) in H.
  destruct (eq_seq (dst_seq pkt) (seq (chan st k))) eqn:E; [apply eq_seq_spec in E; contradiction|].
  cbn [negb] in H. assert (H' : recv_stranger pc pkt k (fix_process_state pc st) = (st', out)) by congruence.
  apply stranger_frame in H'; auto. destruct H' as (L & V & En & F & N & O).
  split; [exact V|]. split; [exact En|]. split; [exact L|]. split; [exact F|]. split; [exact N|].
  destruct O as [O|(p & O & C & Q)]; [auto|]. right. exists p. split; auto. split; auto.
  eapply carries_values; [|exact C]; auto.
Qed.
Print Assumptions C46_stale_packet_harmless.

Example C46_example :
  let st := start_process [1; 0; 2]%nat in
  let pkt := mkPkt (mkSeq 9 9) (mkSeq 8 8) 5 [2; 2; 2; 2]%nat in
  dst_seq pkt <> seq (chan st 0) /\
  exists st' p, on_packet color_node N.of_nat 5 pkt 0 st = Some (st', [Send 0 p]) /\
    values st' = values st /\ pvals p = [0; 2; 2; 2]%nat /\ dst_seq p = mkSeq 9 9.
Proof. split; [discriminate|]. eexists _, _. repeat split. Qed.

(** * C47: acting needs permission *)
Theorem C47_acts_with_permission : forall pc draw fuel pkt k st st' out a b,
  (k < length (channels st))%nat ->
  on_packet pc draw fuel pkt k st = Some (st', out) -> In (Hook a b) out ->
  (* the packet was meant for this state of the process, *)
  dst_seq pkt = seq (chan st k) /\
  (* the process was enabled and every neighbour it reads from had acknowledged
     or does so with this packet, by a lower priority, *)
  (forall q, (q < length (channels st))%nat -> reads_pos pc q 0 ->
     enabled st <> 0%N /\ enabled st <> all_ones /\
     (adj_acknowledged (chan st q) = true \/ q = k /\ (pen pkt < enabled st)%N)) /\
  (* the recorded actions lead from the values with the packet's copies to the
     new values, from which an action choice changes nothing, *)
  (exists hooks sends, out = hooks ++ sends /\
     actions pc (snd (cache pc k 0 (pvals pkt) (values (fix_process_state pc st)))) hooks (values st') /\
     (forall x y, ~ In (Hook x y) sends)) /\
  (exists c, action_assign pc c (values st') = values st') /\
  (* and the process is disabled, forgets all acknowledgements, takes new ids and
     tells every neighbour its values. *)
  enabled st' = 0%N /\ length (channels st') = length (channels st) /\
  (forall q, (q < length (channels st))%nat ->
     adj_acknowledged (chan st' q) = false /\
     ((sidx (seq (chan st q)) < two16)%N -> seq (chan st' q) <> seq (chan st q)) /\
     exists p, In (Send q p) out /\ pen p = 0%N /\ src_seq p = seq (chan st' q) /\ carries pc st' q p).
Proof.
  intros pc draw fuel pkt k st st' out a b Hk H HIn.
  exact (handle_recv_acts pc draw fuel pkt k (fix_process_state pc st) st' out a b Hk H HIn).
Qed.
Print Assumptions C47_acts_with_permission.

Theorem C47_timeout_never_acts : forall pc draw st st' out,
  on_timeout pc draw st = (st', out) ->
  (forall a b, ~ In (Hook a b) out) /\ values st' = values (fix_process_state pc st) /\
  (* an enabled process has no acknowledgement it did not have before *)
  (enabled st' <> 0%N -> forall q, (q < length (channels st))%nat -> adj_acknowledged (chan st' q) = true ->
     enabled st' = enabled st /\ adj_acknowledged (chan st q) = true).
Proof.
  intros pc draw st st' out H. apply handle_timeout_spec in H. destruct H as (L & V & _ & A & S & _).
  split; [intros a b; apply (sends_no_hook pc st'); auto|]. split; [exact V|].
  intros E q Hq C. destruct (A E q Hq C) as (A1 & _ & A3). split; [exact A1|exact A3].
Qed.
Print Assumptions C47_timeout_never_acts.

Theorem C47_only_actions_change_own_variables : forall pc draw fuel pkt k st st' out,
  (k < length (channels st))%nat ->
  on_packet pc draw fuel pkt k st = Some (st', out) -> (forall a b, ~ In (Hook a b) out) ->
  length (values st') = length (values (fix_process_state pc st)) /\
  forall v, (forall j, reads_pos pc k j -> vbl_of pc k j false <> v) ->
    nth v (values st') 0%nat = nth v (values (fix_process_state pc st)) 0%nat.
Proof.
  intros pc draw fuel pkt k st st' out Hk H NH.
  exact (handle_recv_quiet pc draw fuel pkt k (fix_process_state pc st) st' out Hk H NH).
Qed.
Print Assumptions C47_only_actions_change_own_variables.

Example C47_example :
  let st := mkSt 100 [1; 1; 1]%nat
    [mkCh (mkSeq 4 4) (mkSeq 5 5) true false 0; mkCh (mkSeq 6 6) (mkSeq 7 7) false false 0] 0 in
  let pkt := mkPkt (mkSeq 7 7) (mkSeq 6 6) 50 [1; 0; 0; 0]%nat in
  exists st' sends, on_packet color_node N.of_nat 5 pkt 1 st = Some (st', Hook [1;1;1]%nat [1;2;1]%nat :: sends) /\
    length sends = 2%nat.
Proof. eexists _, _. split; [vm_compute|]; reflexivity. Qed.

(** * C48: the marker *)
Theorem C48_enable_marker : forall draw st,
  enabled (CMD_enable draw st) <> 0%N /\ enabled (CMD_enable draw st) <> all_ones /\
  (enabled (CMD_enable draw st) < two32)%N.
Proof. intros. destruct (CMD_enable_frame draw st) as (_ & M & _). exact M. Qed.
Print Assumptions C48_enable_marker.

Theorem C48_no_reserved_marker : forall pc draw st,
  enabled (fst (on_timeout pc draw st)) <> all_ones /\
  forall fuel pkt k st' out, (k < length (channels st))%nat ->
    on_packet pc draw fuel pkt k st = Some (st', out) ->
    (dst_seq pkt = seq (chan st k) \/ enabled st <> all_ones) -> enabled st' <> all_ones.
Proof.
  intros pc draw st. split.
  - destruct (on_timeout pc draw st) as [st' out] eqn:H. apply handle_timeout_spec in H. cbn. apply H.
  - intros fuel pkt k st' out Hk H C. unfold on_packet in H.
    destruct (eq_seq (dst_seq pkt) (seq (chan st k))) eqn:E.
    + apply eq_seq_spec in E. exact (handle_recv_marker pc draw fuel pkt k (fix_process_state pc st) st' out Hk H E).
    + destruct C as [C|C]; [apply eq_seq_spec in C; congruence|].
      apply handle_recv_spec in H; [|exact Hk]. destruct H as [[_ H]|(E' & _)].
      * unfold recv_stranger in H. destruct (_ && _) in H; injection H as <- <-; exact C.
      * apply eq_seq_spec in E'. change (chan (fix_process_state pc st) k) with (chan st k) in E'. congruence.
Qed.
Print Assumptions C48_no_reserved_marker.

(** The claim "after every receive the marker is not all ones" is false for a
    corrupted process: a stale packet does not repair the marker. *)
Theorem C48_stale_packet_refuted : exists pc draw fuel pkt k st st' out,
  (k < length (channels st))%nat /\ length (pvals pkt) = nvbls pc /\
  on_packet pc draw fuel pkt k st = Some (st', out) /\ enabled st' = all_ones.
Proof.
  exists color_node, N.of_nat, 5%nat, (mkPkt (mkSeq 9 9) (mkSeq 8 8) 5 [2; 2; 2; 2]%nat), 0%nat,
    (set_enabled (start_process [1; 0; 2]%nat) all_ones).
  eexists _, _. split; [cbn; lia|]. split; [reflexivity|]. split; reflexivity.
Qed.
Print Assumptions C48_stale_packet_refuted.

Example C48_example : enabled (CMD_enable (fun _ => 4294967295%N) (start_process [1;1;1]%nat)) = 4294967294%N.
Proof. reflexivity. Qed.

(** * C49: byte order *)
Definition in_range (p : Packet) : Prop :=
  (sidx (src_seq p) < two16)%N /\ (skey (src_seq p) < two16)%N /\
  (sidx (dst_seq p) < two16)%N /\ (skey (dst_seq p) < two16)%N /\ (pen p < two32)%N.

Theorem C49_round_trip : forall little p, in_range p -> ntoh_Packet little (hton_Packet little p) = p.
Proof.
  intros [] [[a b] [c d] e v] (A & B & C & D & E); cbn in *; [|reflexivity].
  unfold ntoh_Packet, hton_Packet, ntoh_SeqId, hton_SeqId; cbn.
  rewrite !swap16_swap16, swap32_swap32 by auto. reflexivity.
Qed.
Print Assumptions C49_round_trip.

(** The bytes on the wire do not depend on the host: most significant first. *)
Theorem C49_wire_format : forall little p, in_range p ->
  let q := hton_Packet little p in
  memory little 2 (sidx (src_seq q)) = big_endian 2 (sidx (src_seq p)) /\
  memory little 2 (skey (src_seq q)) = big_endian 2 (skey (src_seq p)) /\
  memory little 2 (sidx (dst_seq q)) = big_endian 2 (sidx (dst_seq p)) /\
  memory little 2 (skey (dst_seq q)) = big_endian 2 (skey (dst_seq p)) /\
  memory little 4 (pen q) = big_endian 4 (pen p) /\ pvals q = pvals p.
Proof.
  intros little p (A & B & C & D & E). cbn.
  repeat split; try (apply memory16; assumption). apply memory32; assumption.
Qed.
Print Assumptions C49_wire_format.

Example C49_example :
  let p := mkPkt (mkSeq 258 3) (mkSeq 4 65535) 16909060 [1; 2]%nat in
  in_range p /\ hton_Packet true p = mkPkt (mkSeq 513 768) (mkSeq 1024 65535) 67305985 [1; 2]%nat.
Proof. vm_compute. repeat split. Qed.

(** * C50: the pseudo-random generator *)
Theorem C50_step_bijective :
  (forall s, (s < two32)%N -> (rand32_xorshift s < two32)%N) /\
  (forall s t, (s < two32)%N -> (t < two32)%N -> rand32_xorshift s = rand32_xorshift t -> s = t) /\
  (forall s, (s < two32)%N -> (rand32_xorshift s = 0%N <-> s = 0%N)).
Proof.
  split; [exact xorshift_lt|]. split; [exact xorshift_inj|]. intros s Hs. split; [|intros ->; reflexivity].
  intros H. apply xorshift_inj; [exact Hs|reflexivity|exact H].
Qed.
Print Assumptions C50_step_bijective.

(** From a non-zero seed the state returns exactly every 2^32 - 1 steps: it runs
    through all non-zero words. *)
Theorem C50_full_period : forall s a b, (s < two32)%N -> s <> 0%N ->
  (xorshift_iter a s = xorshift_iter b s <-> (Z.of_nat a mod 4294967295 = Z.of_nat b mod 4294967295)%Z).
Proof. exact full_period. Qed.
Print Assumptions C50_full_period.

(** The generator of process PcIdx starts at a non-zero word unless PcIdx = 60,
    and two processes never start with the same pair. *)
Theorem C50_seeds : forall i, (i < two32 - 1)%N ->
  (fst (init_rng i) < two32)%N /\ (snd (init_rng i) < two32)%N /\
  (fst (init_rng i) = 0%N <-> i = 60%N) /\
  forall j, (j < two32 - 1)%N -> init_rng i = init_rng j -> i = j.
Proof.
  intros i Hi. unfold init_rng. cbn [fst snd].
  assert (B : (i + 1 < two32)%N) by (unfold two32 in *; lia).
  rewrite (N.mod_small (i + 1)) by exact B.
  split; [apply hash_lt|]. split; [apply hash_lt|]. split.
  - rewrite hash_zero by exact B. lia.
  - intros j Hj H. injection H as _ H. apply hash_inj; auto; unfold two32 in *; lia.
Qed.
Print Assumptions C50_seeds.

(** Process 60 draws the same word forever. *)
Theorem C50_process_60_refuted : forall n, nth_draw 60 n = nth_draw 60 0.
Proof.
  intros n. unfold nth_draw. destruct (init_rng 60) as [r0 r1] eqn:E.
  assert (R : r0 = 0%N) by (vm_compute in E; congruence). subst r0. rewrite !iter_zero. reflexivity.
Qed.
Print Assumptions C50_process_60_refuted.

(** All others repeat a word only after 2^32 - 1 draws. *)
Theorem C50_draws_differ : forall i a b, (i < two32 - 1)%N -> i <> 60%N ->
  (nth_draw i a = nth_draw i b <-> (Z.of_nat a mod 4294967295 = Z.of_nat b mod 4294967295)%Z).
Proof.
  intros i a b Hi Hn. destruct (C50_seeds i Hi) as (B & _ & Z & _). unfold nth_draw.
  destruct (init_rng i) as [r0 r1]. cbn [fst] in *. assert (r0 <> 0%N) by tauto.
  rewrite <- full_period with (s := r0) by assumption. split.
  - intros H'. apply iter_inj with (n := 1%nat); try (apply xorshift_iter_lt; assumption).
    cbn [xorshift_iter] in *. rewrite !(N.lxor_comm _ r1) in H'. now apply lxor_inj_l in H'.
  - intros H'. cbn [xorshift_iter]. now rewrite H'.
Qed.
Print Assumptions C50_draws_differ.

Example C50_example : fst (init_rng 3) <> 0%N /\ nth_draw 3 0 <> nth_draw 3 1.
Proof. split; vm_compute; discriminate. Qed.

(** * C60: a process acts on values its neighbours really had *)
Theorem C60_regular_reads : forall s nchan L G ev out,
  well_formed s nchan -> history s L G ev out -> clean_start s nchan (G 0) -> fresh_ids L G ->
  forall l i x k, (l < L)%nat -> acts out l i x -> (k < nchan i)%nat -> reads_pos (node s i) k 0 ->
  exists m, (m <= l)%nat /\
    (* at time m the neighbour had all the values that x has as copies, *)
    (forall j, reads_pos (node s i) k j ->
       nth (vbl_of (node s i) k j false) x 0%nat = neighbour_value s (G m) i k j) /\
    (* and since then process i has been waiting with the same sequence id. *)
    (forall t, (m <= t <= l)%nat -> id_of (G t) i k = id_of (G l) i k).
Proof.
  intros s nchan L G ev out WF HI ST FR l i x k Hl A Hk R.
  exact (regular s nchan WF L G ev out HI ST FR l i x k Hl A Hk R).
Qed.
Print Assumptions C60_regular_reads.

(** The shipped three-colour ring meets the hypotheses, and a process acts. *)
Definition color_net := after (color_sys color_draws) color_start color_schedule.
Definition color_done := done_at (color_sys color_draws) color_start color_schedule.
Lemma color_runs : exists r, run (color_sys color_draws) color_start color_schedule = Some r.
Proof. eexists. vm_compute. reflexivity. Qed.

Example C60_example :
  well_formed (color_sys color_draws) two /\
  history (color_sys color_draws) 29 color_net (event_at color_schedule) color_done /\
  clean_start (color_sys color_draws) two (color_net 0) /\ fresh_ids 29 color_net /\
  exists l i x, (l < 29)%nat /\ acts color_done l i x.
Proof.
  split; [apply color_wf|]. destruct color_runs as [r R].
  split; [exact (run_history _ _ _ _ R)|]. split; [apply color_clean|].
  split; [apply (fresh_check_spec (color_sys color_draws) color_start color_schedule); vm_compute; reflexivity|].
  assert (W : existsb (fun l => existsb (fun e => match e with Hook _ _ => true | _ => false end) (snd (color_done l)))
                (List.seq 0 29) = true) by (vm_compute; reflexivity).
  apply existsb_exists in W. destruct W as (l & Hl & W). apply existsb_exists in W. destruct W as (e & He & W).
  destruct e as [|x y]; [discriminate|]. exists l, (fst (color_done l)), x.
  apply in_seq in Hl. split; [lia|]. split; [reflexivity|eauto].
Qed.

(** * C61: the emulation is not atomic *)
(** With reliable in-order delivery, fresh ids and a coherent clean start, the
    shipped three-colour ring reaches values that no sequence of atomic actions
    reaches: processes 0 and 1 get the same colour. *)
Theorem C61_atomic_refuted : exists t es g os,
  well_formed (color_sys t) two /\ clean_start (color_sys t) two color_start /\ coherent (color_sys t) two color_start /\
  reliable (color_sys t) color_start es = true /\
  fresh_ids (length es) (after (color_sys t) color_start es) /\
  run (color_sys t) color_start es = Some (g, os) /\
  own (fun i => values (pst g i)) 0 = own (fun i => values (pst g i)) 1 /\
  own (fun i => values (pst g i)) 0 = 2%nat /\
  forall W, atomically (color_sys t) two (fun i => values (pst color_start i)) W ->
    ~ (forall i, (i < 3)%nat -> own W i = own (fun i => values (pst g i)) i).
Proof.
  exists color_draws, color_schedule.
  destruct (run (color_sys color_draws) color_start color_schedule) as [[g os]|] eqn:R; [|vm_compute in R; discriminate].
  exists g, os.
  assert (V : (own (fun i => values (pst g i)) 0, own (fun i => values (pst g i)) 1, own (fun i => values (pst g i)) 2)
              = (2, 2, 0)%nat) by (vm_compute in R; injection R as <- _; reflexivity).
  split; [apply color_wf|]. split; [apply color_clean|]. split; [apply color_coherent|].
  split; [vm_compute; reflexivity|].
  split; [apply fresh_check_spec; vm_compute; reflexivity|].
  split; [reflexivity|]. injection V as V0 V1 V2. split; [congruence|]. split; [exact V0|].
  intros W HW C. apply color_never in HW. destruct HW as [_ HW].
  rewrite (C 0%nat), (C 1%nat), (C 2%nat), V0, V1, V2 in HW by lia. cbn in HW.
  repeat (destruct HW as [HW|HW]; [discriminate|]). destruct HW.
Qed.
Print Assumptions C61_atomic_refuted.

(** The same for a one-way ring of bits: all three bits flip although the first
    flip disables a neighbour in every atomic execution. *)
Theorem C61_one_way_ring_refuted : exists t es g os,
  well_formed (flip_sys t) two /\ clean_start (flip_sys t) two flip_start /\ coherent (flip_sys t) two flip_start /\
  reliable (flip_sys t) flip_start es = true /\
  fresh_ids (length es) (after (flip_sys t) flip_start es) /\
  run (flip_sys t) flip_start es = Some (g, os) /\
  forall W, atomically (flip_sys t) two (fun i => values (pst flip_start i)) W ->
    ~ (forall i, (i < 3)%nat -> own W i = own (fun i => values (pst g i)) i).
Proof.
  exists flip_draws, flip_schedule.
  destruct (run (flip_sys flip_draws) flip_start flip_schedule) as [[g os]|] eqn:R; [|vm_compute in R; discriminate].
  exists g, os.
  assert (V : (own (fun i => values (pst g i)) 0, own (fun i => values (pst g i)) 1, own (fun i => values (pst g i)) 2)
              = (1, 1, 1)%nat) by (vm_compute in R; injection R as <- _; reflexivity).
  split; [apply flip_wf|]. split; [apply flip_clean|]. split; [apply flip_coherent|].
  split; [vm_compute; reflexivity|].
  split; [apply fresh_check_spec; vm_compute; reflexivity|].
  split; [reflexivity|]. injection V as V0 V1 V2.
  intros W HW C. apply flip_never in HW. destruct HW as [_ HW].
  rewrite (C 0%nat), (C 1%nat), (C 2%nat), V0, V1, V2 in HW by lia. cbn in HW.
  repeat (destruct HW as [HW|HW]; [discriminate|]). destruct HW.
Qed.
Print Assumptions C61_one_way_ring_refuted.
