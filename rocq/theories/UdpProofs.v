(** Facts about the handlers of the UDP runtime. *)
From Coq Require Import List NArith Arith Bool Lia.
Import ListNotations.
From Verif Require Import UdpModel UdpSpec.

Lemma update_length {A} (l : list A) i x : length (update l i x) = length l.
Proof. revert i; induction l; intros [|i]; cbn; auto. Qed.
Lemma nth_update_eq {A} (l : list A) i x d : (i < length l)%nat -> nth i (update l i x) d = x.
Proof. revert i; induction l; intros [|i]; cbn; intros; try lia; auto. apply IHl; lia. Qed.
Lemma nth_update_neq {A} (l : list A) i j x d : i <> j -> nth j (update l i x) d = nth j l d.
Proof. revert i j; induction l; intros [|i] [|j]; cbn; intros; try lia; auto. Qed.
Lemma update_oob {A} (l : list A) i x : (length l <= i)%nat -> update l i x = l.
Proof. revert i; induction l; intros [|i]; cbn; intros; try lia; auto. f_equal. apply IHl; lia. Qed.

(** * Accessors *)
Lemma nchan_set_chan st k c : length (channels (set_chan st k c)) = length (channels st).
Proof. apply update_length. Qed.
Lemma chan_set_eq st k c : (k < length (channels st))%nat -> chan (set_chan st k c) k = c.
Proof. intros. unfold chan, set_chan; cbn. apply nth_update_eq; auto. Qed.
Lemma chan_set_neq st k c q : k <> q -> chan (set_chan st k c) q = chan st q.
Proof. intros. unfold chan, set_chan; cbn. apply nth_update_neq; auto. Qed.

(** * Sequence ids *)
Definition next_seq (draw : nat -> N) n (c : Channel) : Channel :=
  mkCh (mkSeq ((sidx (seq c) + 1) mod two16) (draw n mod two16)) (adj_seq c) false true (n_timeout_skips c).
Definition reseqed (c c' : Channel) : Prop :=
  sidx (seq c') = ((sidx (seq c) + 1) mod two16)%N /\ (skey (seq c') < two16)%N /\
  adj_seq c' = adj_seq c /\ adj_acknowledged c' = false /\ reply c' = true /\
  n_timeout_skips c' = n_timeout_skips c.

Lemma two16_pos : two16 <> 0%N. Proof. discriminate. Qed.
Lemma two32_pos : two32 <> 0%N. Proof. discriminate. Qed.

Section P.
Variable pc : iden.
Variable draw : nat -> N.

Lemma CMD_seq_frame st k :
  length (channels (CMD_seq draw st k)) = length (channels st) /\
  enabled (CMD_seq draw st k) = enabled st /\ values (CMD_seq draw st k) = values st /\
  (forall q, q <> k -> chan (CMD_seq draw st k) q = chan st q) /\
  ((k < length (channels st))%nat -> reseqed (chan st k) (chan (CMD_seq draw st k) k)).
Proof.
  unfold CMD_seq. repeat split.
  - apply update_length.
  - intros q Hq. unfold chan, drew, set_chan; cbn. apply nth_update_neq; auto.
  - unfold chan at 1, drew, set_chan; cbn. rewrite nth_update_eq; auto.
  - unfold chan at 1, drew, set_chan; cbn. rewrite nth_update_eq; auto. cbn. apply N.mod_lt, two16_pos.
  - unfold chan at 1, drew, set_chan; cbn. rewrite nth_update_eq; auto.
  - unfold chan at 1, drew, set_chan; cbn. rewrite nth_update_eq; auto.
  - unfold chan at 1, drew, set_chan; cbn. rewrite nth_update_eq; auto.
  - unfold chan at 1, drew, set_chan; cbn. rewrite nth_update_eq; auto.
Qed.

Lemma seq_fold ks : forall st, NoDup ks -> (forall k, In k ks -> (k < length (channels st))%nat) ->
  let st' := fold_left (CMD_seq draw) ks st in
  length (channels st') = length (channels st) /\ enabled st' = enabled st /\ values st' = values st /\
  (forall q, ~ In q ks -> chan st' q = chan st q) /\
  (forall q, In q ks -> reseqed (chan st q) (chan st' q)).
Proof.
  induction ks as [|k ks IH]; intros st ND B; cbn.
  { repeat split; auto; contradiction. }
  destruct (CMD_seq_frame st k) as (L & E & V & F & R).
  inversion ND; subst.
  destruct (IH (CMD_seq draw st k)) as (L' & E' & V' & F' & R'); auto.
  { intros q Hq. rewrite L. apply B; cbn; auto. }
  split; [congruence|]. split; [congruence|]. split; [congruence|]. split.
  - intros q Hq. rewrite F' by tauto. apply F. intros ->; tauto.
  - intros q [->|Hq].
    + rewrite F' by auto. apply R, B; cbn; auto.
    + rewrite <- (F q); [apply R'; auto|]. intros ->; tauto.
Qed.

Lemma CMD_seq_all_frame st :
  let st' := CMD_seq_all draw st in
  length (channels st') = length (channels st) /\ enabled st' = enabled st /\ values st' = values st /\
  (forall q, (q < length (channels st))%nat -> reseqed (chan st q) (chan st' q)).
Proof.
  unfold CMD_seq_all.
  destruct (seq_fold (List.seq 0 (length (channels st))) st) as (L & E & V & F & R).
  { apply seq_NoDup. }
  { intros k Hk. apply in_seq in Hk. lia. }
  repeat (split; [assumption|]). intros q Hq. apply R, in_seq. lia.
Qed.

Lemma chan_oob st q : (length (channels st) <= q)%nat -> chan st q = no_channel.
Proof. intros. unfold chan. apply nth_overflow; auto. Qed.

Lemma CMD_disable_frame st :
  let st' := CMD_disable draw st in
  length (channels st') = length (channels st) /\ enabled st' = 0%N /\ values st' = values st /\
  (forall q, (q < length (channels st))%nat -> reseqed (chan st q) (chan st' q)).
Proof. apply (CMD_seq_all_frame (set_enabled st 0)). Qed.

(** The priority of a process that becomes enabled is neither 0 nor all ones. *)
Definition marker_ok (e : N) : Prop := e <> 0%N /\ e <> all_ones /\ (e < two32)%N.
Lemma marker_of_draw x :
  let e := (x mod two32)%N in
  marker_ok (if ((e =? 0) || (e =? all_ones))%N then N.lxor e 1 else e).
Proof.
  cbn zeta. pose proof (N.mod_lt x two32 two32_pos) as B. set (e := (x mod two32)%N) in *. clearbody e.
  destruct (N.eqb_spec e 0).
  { subst. cbn. repeat split; discriminate. }
  destruct (N.eqb_spec e all_ones); cbn [orb].
  { subst. vm_compute. repeat split; discriminate. }
  repeat split; auto.
Qed.

Lemma CMD_enable_frame st :
  let st' := CMD_enable draw st in
  length (channels st') = length (channels st) /\ marker_ok (enabled st') /\ values st' = values st /\
  (forall q, (q < length (channels st))%nat -> reseqed (chan st q) (chan st' q)).
Proof.
  cbn zeta. unfold CMD_enable.
  match goal with |- context[set_enabled (drew st) ?e] => set (e0 := e) end.
  destruct (CMD_seq_all_frame (set_enabled (drew st) e0)) as (L & E & V & R).
  split; [exact L|]. split.
  { rewrite E. unfold e0. apply (marker_of_draw (draw (nd st))). }
  split; [exact V|exact R].
Qed.

(** * Sending *)
Lemma fill_values st k : forall old i j,
  (forall q, (i <= q <= i + j)%nat -> (vbl_of pc k q true < nvbls pc)%nat) -> (j < length old)%nat ->
  nth j (fill pc st k i old) 0%nat = nth (vbl_of pc k (i + j) true) (values st) 0%nat.
Proof.
  induction old as [|o old IH]; intros i j H Hj; cbn [length] in Hj; [lia|].
  cbn [fill]. destruct (Nat.leb_spec (nvbls pc) (vbl_of pc k i true)).
  { specialize (H i). lia. }
  destruct j as [|j]; cbn [nth].
  { now rewrite Nat.add_0_r. }
  rewrite IH; [|intros q Hq; apply H; lia|lia]. now rewrite Nat.add_succ_r.
Qed.
Lemma fill_length st k : forall old i, length (fill pc st k i old) = length old.
Proof. induction old; intros i; cbn; auto. destruct (_ <=? _)%nat; cbn; auto. Qed.

(** What a packet sent by a process in state [st] on channel k looks like. *)

Lemma carries_values st st' k p : values st = values st' -> carries pc st k p -> carries pc st' k p.
Proof. unfold carries. intros E. rewrite E. auto. Qed.

Lemma carries_fill st k old s d e : length old = nvbls pc -> carries pc st k (mkPkt s d e (fill pc st k 0 old)).
Proof.
  intros L. split; cbn.
  - now rewrite fill_length.
  - intros j W Hj. rewrite fill_values; cbn; auto; [|lia]. intros q Hq. apply W. lia.
Qed.

(** A channel after sending: only the reply flag and the timer change. *)
Definition sent_chan (c c' : Channel) : Prop :=
  seq c' = seq c /\ adj_seq c' = adj_seq c /\ adj_acknowledged c' = adj_acknowledged c.
Lemma sent_chan_refl c : sent_chan c c. Proof. repeat split. Qed.
Lemma sent_chan_trans a b c : sent_chan a b -> sent_chan b c -> sent_chan a c.
Proof. intros (A1&A2&A3) (B1&B2&B3). repeat split; congruence. Qed.

Lemma CMD_send1_frame st k e st' out : CMD_send1 pc st k e = (st', out) ->
  length (channels st') = length (channels st) /\ enabled st' = enabled st /\ values st' = values st /\
  (forall q, sent_chan (chan st q) (chan st' q)) /\
  exists p, out = [Send k p] /\ carries pc st k p /\ pen p = e /\
            src_seq p = seq (chan st k) /\ dst_seq p = adj_seq (chan st k).
Proof.
  unfold CMD_send1. intros H. injection H as <- <-. repeat split.
  1: apply update_length.
  1-3: destruct (Nat.eq_dec k q) as [->|Hq];
    [destruct (Nat.lt_ge_cases q (length (channels st)));
      [rewrite chan_set_eq by auto; reflexivity
      |rewrite !chan_oob by (rewrite ?nchan_set_chan; auto); reflexivity]
    |rewrite chan_set_neq; auto].
  eexists. split; [reflexivity|]. split; [apply carries_fill, repeat_length|]. repeat split.
Qed.

Definition sends_from (st : State) (out : list effect) : Prop :=
  forall x, In x out -> exists k p, x = Send k p /\ carries pc st k p.

Lemma send_loop_frame : forall ks st st' out, send_loop pc ks st = (st', out) ->
  length (channels st') = length (channels st) /\ enabled st' = enabled st /\ values st' = values st /\
  (forall q, sent_chan (chan st q) (chan st' q)) /\ sends_from st out /\
  (forall k p, In (Send k p) out -> In k ks /\ pen p = enabled st /\
     src_seq p = seq (chan st k) /\ dst_seq p = adj_seq (chan st k)) /\
  (forall k, In k ks -> enabled st = 0%N \/ adj_acknowledged (chan st k) = false -> exists p, In (Send k p) out).
Proof.
  induction ks as [|k ks IH]; intros st st' out H; cbn [send_loop] in H.
  { injection H as <- <-. repeat split; try contradiction; auto. intros x []. }
  destruct (negb (enabled st =? 0)%N && adj_acknowledged (chan st k)) eqn:C.
  - destruct (IH _ _ _ H) as (L & E & V & F & S & P & A). repeat (split; [assumption|]).
    split.
    + intros q p Hq. destruct (P q p Hq) as (P1 & P2). split; [cbn; auto|exact P2].
    + intros q [->|Hq] Hd; [|apply A; auto]. apply andb_true_iff in C. destruct C as [C1 C2].
      apply negb_true_iff, N.eqb_neq in C1. destruct Hd; [contradiction|congruence].
  - destruct (CMD_send pc st k) as [st1 o1] eqn:E1. destruct (send_loop pc ks st1) as [st2 o2] eqn:E2.
    injection H as <- <-. unfold CMD_send in E1. apply CMD_send1_frame in E1.
    destruct E1 as (L1 & En1 & V1 & F1 & p & -> & C1 & Pe & Ps & Pd).
    destruct (IH _ _ _ E2) as (L & E & V & F & S & P & A).
    split; [congruence|]. split; [congruence|]. split; [congruence|]. split.
    { intros q. eapply sent_chan_trans; [apply F1|apply F]. }
    split.
    { intros x [<-|Hx]; [exists k, p; auto|]. destruct (S x Hx) as (q & p' & -> & Cq).
      exists q, p'. split; auto. eapply carries_values; eauto. }
    split.
    { intros q p' [Hq|Hq].
      - injection Hq as <- <-. cbn. repeat split; auto.
      - destruct (P q p' Hq) as (P1 & P2 & P3 & P4). destruct (F1 q) as (G1 & G2 & G3).
        split; [cbn; auto|]. split; [congruence|]. split; congruence. }
    intros q [->|Hq] Hd.
    + exists p. cbn; auto.
    + destruct (F1 q) as (G1 & G2 & G3). destruct (A q Hq) as [p' Hp'].
      { rewrite En1, G3. auto. }
      exists p'. cbn; auto.
Qed.

(** * Reading *)
Lemma cache_length k : forall pv i x, length (snd (cache pc k i pv x)) = length x.
Proof.
  induction pv as [|v pv IH]; intros i x; cbn; auto.
  destruct (_ <=? _)%nat; auto. specialize (IH (S i) (update x (vbl_of pc k i false) v)).
  destruct (cache pc k (S i) pv _) as [b x']. cbn in *. rewrite IH. apply update_length.
Qed.

(** Variables that no read position from i on refers to keep their values. *)
Lemma cache_other k w : forall pv i x,
  (forall j, (i <= j)%nat -> (forall q, (i <= q <= j)%nat -> (vbl_of pc k q false < nvbls pc)%nat) ->
     vbl_of pc k j false <> w) ->
  nth w (snd (cache pc k i pv x)) 0%nat = nth w x 0%nat.
Proof.
  induction pv as [|v pv IH]; intros i x H; cbn; auto.
  destruct (Nat.leb_spec (nvbls pc) (vbl_of pc k i false)); auto.
  specialize (IH (S i) (update x (vbl_of pc k i false) v)).
  destruct (cache pc k (S i) pv _) as [b x']. cbn in *. rewrite IH.
  - apply nth_update_neq. apply (H i); auto. intros q Hq. replace q with i by lia. auto.
  - intros j Hj B. apply H; [lia|]. intros q Hq. destruct (Nat.eq_dec q i) as [->|]; auto. apply B. lia.
Qed.

(** A variable read at position j gets the value of the packet. *)
Lemma cache_read k : forall pv i x j,
  (i <= j)%nat -> (j < i + length pv)%nat ->
  (forall q, (i <= q <= j)%nat -> (vbl_of pc k q false < nvbls pc)%nat) ->
  (vbl_of pc k j false < length x)%nat ->
  (forall q, (j < q)%nat -> (forall r, (i <= r <= q)%nat -> (vbl_of pc k r false < nvbls pc)%nat) ->
     vbl_of pc k q false <> vbl_of pc k j false) ->
  nth (vbl_of pc k j false) (snd (cache pc k i pv x)) 0%nat = nth (j - i) pv 0%nat.
Proof.
  induction pv as [|v pv IH]; intros i x j Hij Hj B Hx D; cbn [length] in Hj; [lia|].
  cbn [cache]. destruct (Nat.leb_spec (nvbls pc) (vbl_of pc k i false)).
  { specialize (B i). lia. }
  destruct (Nat.eq_dec i j) as [->|Hne].
  - pose proof (cache_other k (vbl_of pc k j false) pv (S j) (update x (vbl_of pc k j false) v)) as O.
    destruct (cache pc k (S j) pv _) as [b x']. cbn [snd] in *. rewrite O.
    + rewrite nth_update_eq by auto. now rewrite Nat.sub_diag.
    + intros q Hq R. apply D; [lia|]. intros r Hr.
      destruct (Nat.eq_dec r j) as [->|]; auto. apply R. lia.
  - specialize (IH (S i) (update x (vbl_of pc k i false) v) j).
    destruct (cache pc k (S i) pv _) as [b x']. cbn [snd] in *. rewrite IH; try lia.
    + replace (j - i)%nat with (S (j - S i)) by lia. reflexivity.
    + intros q Hq. apply B. lia.
    + now rewrite update_length.
    + intros q Hq R. apply D; auto. intros r Hr. destruct (Nat.eq_dec r i) as [->|]; [auto|]. apply R. lia.
Qed.

End P.
