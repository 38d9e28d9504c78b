(** Model of the UDP runtime, /repo/src/udp-impl/protocol.c: pseudo-random
    numbers, byte order, and the event handlers of one process.

    32- and 16-bit words are [N]; the C operations reduce modulo the word size.
    The generated functions process_of_channel, variable_of_channel,
    domsz_of_variable, assume_assign and action_assign (act.h, udp-ofile.cc) are
    the fields of [iden].  Every random draw comes from a stream [draw], indexed
    by the number of draws made so far: the theorems hold for every stream, in
    particular for the one of [randomize].  Logging, sockets, timers, signals
    and the artificial lag of actions are not modelled. *)
From Coq Require Import List NArith Arith Bool.
Import ListNotations.
Local Open Scope N_scope.

Definition two32 : N := 4294967296.
Definition two16 : N := 65536.
(** ~(uint32_t)0 *)
Definition all_ones : N := 4294967295.

(** * Pseudo-random numbers *)

(** protocol.c:117-127. *)
Definition hash32_wang (seed : N) : N :=
  let seed := N.lxor (N.lxor seed 61) (N.shiftr seed 16) in
  let seed := (seed * 9) mod two32 in
  let seed := N.lxor seed (N.shiftr seed 4) in
  let seed := (seed * 668265261) mod two32 in
  N.lxor seed (N.shiftr seed 15).

(** protocol.c:137-145; the new state is also the result. *)
Definition rand32_xorshift (s : N) : N :=
  let s := N.lxor s (N.shiftl s 13 mod two32) in
  let s := N.lxor s (N.shiftr s 17) in
  N.lxor s (N.shiftl s 5 mod two32).

(** protocol.c:129-135. *)
Definition init_rng (PcIdx : N) : N * N :=
  (hash32_wang ((PcIdx + 1) mod two32), hash32_wang PcIdx).

(** The n-th 32-bit draw of protocol.c:147-163 (without UseRandomDevice) after
    seeding the process with index PcIdx; one word per call is used for values
    of at most four bytes. *)
Fixpoint xorshift_iter (n : nat) (s : N) : N :=
  match n with O => s | S n' => rand32_xorshift (xorshift_iter n' s) end.
Definition nth_draw (PcIdx : N) (n : nat) : N :=
  let (r0, r1) := init_rng PcIdx in N.lxor (xorshift_iter (S n) r0) r1.

(** * Packets and byte order *)

(** protocol.c:8-20. *)
Record SeqId := mkSeq { sidx : N; skey : N }.
Record Packet := mkPkt { src_seq : SeqId; dst_seq : SeqId; pen : N; pvals : list nat }.

(** protocol.c:58-60. *)
Definition eq_seq (a b : SeqId) : bool := (sidx a =? sidx b) && (skey a =? skey b).

(** htons/ntohs and htonl/ntohl on a little- or big-endian host. *)
Definition swap16 (x : N) : N := (x mod 256) * 256 + (x / 256) mod 256.
Definition swap32 (x : N) : N := swap16 (x mod two16) * two16 + swap16 (x / two16).
Definition hton16 (little : bool) (x : N) : N := if little then swap16 x else x.
Definition hton32 (little : bool) (x : N) : N := if little then swap32 x else x.

(** protocol.c:83-115; the ntoh functions use ntohs and ntohl, which are the
    same functions as htons and htonl. *)
Definition hton_SeqId (little : bool) (s : SeqId) : SeqId :=
  mkSeq (hton16 little (sidx s)) (hton16 little (skey s)).
Definition ntoh_SeqId := hton_SeqId.
Definition hton_Packet (little : bool) (p : Packet) : Packet :=
  mkPkt (hton_SeqId little (src_seq p)) (hton_SeqId little (dst_seq p)) (hton32 little (pen p)) (pvals p).
Definition ntoh_Packet (little : bool) (p : Packet) : Packet :=
  mkPkt (ntoh_SeqId little (src_seq p)) (ntoh_SeqId little (dst_seq p)) (hton32 little (pen p)) (pvals p).

(** * Process state *)

(** protocol.c:31-41, without the host address. *)
Record Channel := mkCh {
  seq : SeqId; adj_seq : SeqId; adj_acknowledged : bool; reply : bool; n_timeout_skips : N }.
(** protocol.c:43-53, without descriptor and log; [nd] counts random draws. *)
Record State := mkSt { enabled : N; values : list nat; channels : list Channel; nd : nat }.

(** The generated part.  [nvbls] is Max_NVariables, [doms] the domain sizes
    (domsz_of_variable gives 0 beyond the list).  [vbl_of k i writing] is
    variable_of_channel; a result of at least [nvbls] ends the loops.
    [action draw x] is action_assign with the random number it may use. *)
Record iden := mkIden {
  nvbls : nat;
  doms : list nat;
  vbl_of : nat -> nat -> bool -> nat;
  assume_assign : list nat -> list nat;
  action_assign : N -> list nat -> list nat }.

Definition domsz_of_variable (pc : iden) (i : nat) : nat := nth i (doms pc) 0%nat.

(** What the process does besides changing its state: packets sent on a channel
    and calls of action_assign_hook (one per executed action). *)
Inductive effect := Send (k : nat) (p : Packet) | Hook (pre img : list nat).

Fixpoint update {A} (l : list A) (i : nat) (x : A) : list A :=
  match l, i with
  | [], _ => []
  | _ :: l', O => x :: l'
  | y :: l', S i' => y :: update l' i' x
  end.

Definition no_seq : SeqId := mkSeq 0 0.
Definition no_channel : Channel := mkCh no_seq no_seq false false 0.
Definition chan (st : State) (k : nat) : Channel := nth k (channels st) no_channel.
Definition set_chan (st : State) (k : nat) (c : Channel) : State :=
  mkSt (enabled st) (values st) (update (channels st) k c) (nd st).
Definition set_enabled (st : State) (e : N) : State := mkSt e (values st) (channels st) (nd st).
Definition set_values (st : State) (v : list nat) : State := mkSt (enabled st) v (channels st) (nd st).
Definition drew (st : State) : State := mkSt (enabled st) (values st) (channels st) (S (nd st)).
Definition with_ack (c : Channel) (b : bool) : Channel := mkCh (seq c) (adj_seq c) b (reply c) (n_timeout_skips c).
Definition with_reply (c : Channel) (b : bool) : Channel :=
  mkCh (seq c) (adj_seq c) (adj_acknowledged c) b (n_timeout_skips c).
Definition with_adj (c : Channel) (s : SeqId) : Channel :=
  mkCh (seq c) s (adj_acknowledged c) (reply c) (n_timeout_skips c).
Definition with_skips (c : Channel) (n : N) : Channel :=
  mkCh (seq c) (adj_seq c) (adj_acknowledged c) (reply c) n.

Section Process.
Variable pc : iden.
Variable draw : nat -> N.

(** protocol.c:225-234: a 16-bit key is the low half of a draw. *)
Definition CMD_seq (st : State) (k : nat) : State :=
  let c := chan st k in
  let s := mkSeq ((sidx (seq c) + 1) mod two16) (draw (nd st) mod two16) in
  drew (set_chan st k (mkCh s (adj_seq c) false true (n_timeout_skips c))).
(** protocol.c:247-253. *)
Definition CMD_seq_all (st : State) : State :=
  fold_left CMD_seq (List.seq 0 (length (channels st))) st.
(** protocol.c:265-273. *)
Definition CMD_enable (st : State) : State :=
  let e := draw (nd st) mod two32 in
  let e := if (e =? 0) || (e =? all_ones) then N.lxor e 1 else e in
  CMD_seq_all (set_enabled (drew st) e).
(** protocol.c:278-283. *)
Definition CMD_disable (st : State) : State := CMD_seq_all (set_enabled st 0).

(** protocol.c:672-683: the loop stops at the first variable without a domain. *)
Fixpoint reduce_values (ds x : list nat) : list nat :=
  match ds, x with
  | d :: ds', v :: x' =>
      if (d =? 0)%nat then x
      else (if (d <=? v)%nat then (v mod d)%nat else v) :: reduce_values ds' x'
  | _, _ => x
  end.
Definition fix_process_state (st : State) : State :=
  set_values st (assume_assign pc (reduce_values (firstn (nvbls pc) (doms pc)) (values st))).

Fixpoint eq_values (a b : list nat) : bool :=
  match a, b with
  | [], [] => true
  | x :: a', y :: b' => (x =? y)%nat && eq_values a' b'
  | _, _ => false
  end.
(** protocol.c:691-716 with modify = 0: can the process act? *)
Definition can_act (st : State) : bool * State :=
  (negb (eq_values (action_assign pc (draw (nd st)) (values st)) (values st)), drew st).
(** protocol.c:997-999, the loop "while (CMD_act(st, 1))".  None: the loop does
    not end within the fuel. *)
Fixpoint act_loop (fuel : nat) (st : State) : option (State * list effect) :=
  match fuel with
  | O => None
  | S fuel' =>
      let x := action_assign pc (draw (nd st)) (values st) in
      if eq_values x (values st) then Some (drew st, [])
      else
        match act_loop fuel' (set_values (drew st) x) with
        | None => None
        | Some (st', out) => Some (st', Hook (values st) x :: out)
        end
  end.

(** protocol.c:730-735 and 885-890: the loop filling the values of a packet from
    position i on; positions after the first unused one keep their content. *)
Fixpoint fill (st : State) (k i : nat) (old : list nat) : list nat :=
  match old with
  | [] => []
  | o :: old' =>
      let v := vbl_of pc k i true in
      if (nvbls pc <=? v)%nat then o :: old'
      else nth v (values st) 0%nat :: fill st k (S i) old'
  end.

Definition NQuickTimeouts : N := 15.
(** protocol.c:722-748. *)
Definition CMD_send1 (st : State) (k : nat) (e : N) : State * list effect :=
  let c := chan st k in
  let p := mkPkt (seq c) (adj_seq c) e (fill st k 0 (repeat 0%nat (nvbls pc))) in
  (set_chan st k (with_reply (with_skips c (NQuickTimeouts - 1)) false), [Send k p]).
Definition CMD_send (st : State) (k : nat) : State * list effect := CMD_send1 st k (enabled st).
(** protocol.c:754-763. *)
Fixpoint send_loop (ks : list nat) (st : State) : State * list effect :=
  match ks with
  | [] => (st, [])
  | k :: ks' =>
      if negb (enabled st =? 0) && adj_acknowledged (chan st k) then send_loop ks' st
      else
        let (st1, out1) := CMD_send st k in
        let (st2, out2) := send_loop ks' st1 in
        (st2, out1 ++ out2)
  end.
Definition CMD_send_all (st : State) : State * list effect :=
  send_loop (List.seq 0 (length (channels st))) st.

(** protocol.c:769-777; the channels the process reads from. *)
Definition reads (k : nat) : bool := (vbl_of pc k 0 false <? nvbls pc)%nat.
Definition all_adj_acknowledged (st : State) : bool :=
  forallb (fun k => negb (reads k) || adj_acknowledged (chan st k)) (List.seq 0 (length (channels st))).

(** protocol.c:783-803. *)
Definition update_enabled (st : State) : bool * State :=
  let st := if enabled st =? all_ones then set_enabled st 0 else st in
  let (can, st) := can_act st in
  if can then
    if enabled st =? 0 then (true, CMD_enable st) else (false, st)
  else
    if enabled st =? 0 then (false, st) else (true, CMD_disable st).

(** protocol.c:896-905: the values of the neighbour are copied from position i on. *)
Fixpoint cache (k i : nat) (pv : list nat) (x : list nat) : bool * list nat :=
  match pv with
  | [] => (false, x)
  | v :: pv' =>
      let w := vbl_of pc k i false in
      if (nvbls pc <=? w)%nat then (false, x)
      else
        let (changed, x') := cache k (S i) pv' (update x w v) in
        (negb (nth w x 0%nat =? v)%nat || changed, x')
  end.

(** protocol.c:866-894: the packet does not carry our sequence id. *)
Definition recv_stranger (pkt : Packet) (k : nat) (st : State) : State * list effect :=
  let c := chan st k in
  if eq_seq (src_seq pkt) (adj_seq c) && negb (adj_acknowledged c) && negb (reply c)
  then (set_chan st k (with_reply c true), [])
  else
    let e := if negb (enabled st =? 0) && (enabled st <? pen pkt) then all_ones else enabled st in
    let p := mkPkt (seq c) (src_seq pkt) e (fill st k 0 (pvals pkt)) in
    (set_chan st k (with_reply c false), [Send k p]).

(** The rest of the packet handler, in the order of the code.
    protocol.c:907-917: the packet may be the acknowledgement we wait for. *)
Definition recv_ack (pkt : Packet) (k : nat) (st : State) : State :=
  if negb (enabled st =? 0) && (pen pkt <? enabled st)
  then set_chan st k (with_ack (chan st k) true) else st.
(** protocol.c:919-929; the result says whether to broadcast and to reply. *)
Definition recv_update (adj_acted : bool) (k : nat) (st : State) : State * bool * bool :=
  let (bcast, st) := update_enabled st in
  if negb bcast && adj_acted && (enabled st =? 0) then
    let st := CMD_seq st k in (set_chan st k (with_ack (chan st k) true), bcast, true)
  else (st, bcast, false).
(** protocol.c:931-941. *)
Definition recv_adj (pkt : Packet) (k : nat) (st : State) : State :=
  if negb (eq_seq (adj_seq (chan st k)) (src_seq pkt)) then
    let st := set_chan st k (with_adj (chan st k) (src_seq pkt)) in
    if negb (pen pkt =? 0) && negb (pen pkt =? all_ones) && (enabled st =? 0)
       && eq_seq (dst_seq pkt) (seq (chan st k))
    then CMD_seq st k else st
  else st.
(** protocol.c:943-951. *)
Definition recv_reply (pkt : Packet) (k : nat) (st : State) (reply1 : bool) : bool :=
  if pen pkt =? all_ones then true
  else if negb (pen pkt =? 0) && negb (adj_acknowledged (chan st k)) then true else reply1.
(** protocol.c:953-990. *)
Definition recv_priority (pkt : Packet) (k : nat) (st : State) (bcast reply2 : bool) : State * bool * bool :=
  if negb (enabled st =? 0) then
    let (st, bcast) :=
      if pen pkt =? enabled st then (CMD_enable st, true)
      else if (enabled st <? pen pkt) && negb (pen pkt =? all_ones) then (CMD_seq st k, bcast)
      else (st, bcast) in
    (st, bcast,
     if pen pkt =? all_ones then reply2
     else if adj_acknowledged (chan st k) then false else reply2)
  else if eq_seq (dst_seq pkt) (seq (chan st k)) then
    let st := set_chan st k (with_ack (chan st k) true) in
    if reply2 then (st, bcast, true)
    else if reply (chan st k) then (st, bcast, true)
    else (set_chan st k (with_reply (chan st k) true), bcast, false)
  else (st, bcast, reply2).
(** protocol.c:992-1018. *)
Definition recv_finish (fuel k : nat) (st : State) (bcast reply3 : bool) : option (State * list effect) :=
  if negb (enabled st =? 0) && all_adj_acknowledged st then
    match act_loop fuel st with
    | None => None
    | Some (st, hooks) => let (st, sends) := CMD_send_all (CMD_disable st) in Some (st, hooks ++ sends)
    end
  else if bcast then Some (CMD_send_all st)
  else if reply3 then Some (CMD_send st k)
  else Some (st, []).
(** protocol.c:859-1019.  The result is the new state and what happened; None: the
    loop of line 997 did not end within the fuel. *)
Definition handle_recv (fuel : nat) (pkt : Packet) (k : nat) (st : State)
  : option (State * list effect) :=
  if negb (eq_seq (dst_seq pkt) (seq (chan st k))) then Some (recv_stranger pkt k st)
  else
    let (adj_acted, x) := cache k 0 (pvals pkt) (values st) in
    let '(st2, bcast, reply1) := recv_update adj_acted k (recv_ack pkt k (set_values st x)) in
    let st3 := recv_adj pkt k st2 in
    let '(st4, bcast, reply3) := recv_priority pkt k st3 bcast (recv_reply pkt k st3 reply1) in
    recv_finish fuel k st4 bcast reply3.

(** protocol.c:1021-1057. *)
Fixpoint timeout_loop (ks : list nat) (st : State) : State * list effect :=
  match ks with
  | [] => (st, [])
  | k :: ks' =>
      let c := chan st k in
      let skips := if (NQuickTimeouts / 2 + NQuickTimeouts) <=? n_timeout_skips c
                   then NQuickTimeouts - 1 else n_timeout_skips c in
      let st := set_chan st k (with_skips c skips) in
      if adj_acknowledged c && negb (enabled st =? 0) then timeout_loop ks' st
      else if adj_acknowledged c && (0 <? skips) then
        timeout_loop ks' (set_chan st k (with_skips (chan st k) (skips - 1)))
      else
        let (st, out1) :=
          if adj_acknowledged c
          then CMD_send1 (set_chan st k (with_ack (chan st k) false)) k all_ones
          else CMD_send st k in
        let n := NQuickTimeouts / 2 + draw (nd st) mod two32 mod NQuickTimeouts in
        let st := drew (set_chan st k (with_skips (chan st k) n)) in
        let (st, out2) := timeout_loop ks' st in
        (st, out1 ++ out2)
  end.
Definition handle_timeout (st : State) : State * list effect :=
  let st := if negb (enabled st =? 0) && all_adj_acknowledged st then set_enabled st 0 else st in
  let (_, st) := update_enabled st in
  timeout_loop (List.seq 0 (length (channels st))) st.

(** The body of the main loop, protocol.c:1155-1204, for the two kinds of
    events: every event is preceded by fix_process_state. *)
Definition on_packet (fuel : nat) (pkt : Packet) (k : nat) (st : State) : option (State * list effect) :=
  handle_recv fuel pkt k (fix_process_state st).
Definition on_timeout (st : State) : State * list effect := handle_timeout (fix_process_state st).

End Process.
