(** Specification vocabulary for the UDP runtime: a network of processes that
    exchange packets over channels which may lose, duplicate and reorder, and
    the protocol it is meant to execute (one process at a time acts on the
    current values of the variables it reads). *)
From Coq Require Import List NArith Arith Bool Lia.
Import ListNotations.
From Verif Require Import UdpModel.

(** * The network *)

(** [node i] is the generated code of process i, [coin i] its random stream, and
    [peer i k] the process at the other end of channel k of process i together
    with the number that channel has there. *)
Record system := mkSys {
  nproc : nat;
  node : nat -> iden;
  coin : nat -> nat -> N;
  peer : nat -> nat -> nat * nat;
  fuel : nat }.

(** Packets on their way are kept with their destination (process, channel), in
    the order they were sent. *)
Record net := mkNet { proc : list State; flight : list (nat * nat * Packet) }.

Definition no_state : State := mkSt 0 [] [] 0.
Definition pst (g : net) (i : nat) : State := nth i (proc g) no_state.

Inductive event :=
  | Timeout (i : nat)          (* the timer of process i runs out *)
  | Deliver (n : nat)          (* the n-th packet on its way arrives *)
  | Duplicate (n : nat)        (* the network copies the n-th packet *)
  | Lose (n : nat).            (* the network drops the n-th packet *)

Definition remove_nth {A} (n : nat) (l : list A) : list A := firstn n l ++ skipn (S n) l.

Fixpoint sent (s : system) (i : nat) (out : list effect) : list (nat * nat * Packet) :=
  match out with
  | [] => []
  | Send k p :: out' => (peer s i k, p) :: sent s i out'
  | Hook _ _ :: out' => sent s i out'
  end.

(** One event: the new network, the process that ran, and what it did. *)
Definition step (s : system) (g : net) (e : event) : option (net * (nat * list effect)) :=
  match e with
  | Timeout i =>
      if (i <? nproc s)%nat then
        let (st, out) := on_timeout (node s i) (coin s i) (pst g i) in
        Some (mkNet (update (proc g) i st) (flight g ++ sent s i out), (i, out))
      else None
  | Deliver n =>
      match nth_error (flight g) n with
      | None => None
      | Some (i, k, p) =>
          match on_packet (node s i) (coin s i) (fuel s) p k (pst g i) with
          | None => None
          | Some (st, out) =>
              Some (mkNet (update (proc g) i st) (remove_nth n (flight g) ++ sent s i out), (i, out))
          end
      end
  | Duplicate n =>
      match nth_error (flight g) n with
      | None => None
      | Some x => Some (mkNet (proc g) (flight g ++ [x]), (0, [])%nat)
      end
  | Lose n =>
      match nth_error (flight g) n with
      | None => None
      | Some _ => Some (mkNet (proc g) (remove_nth n (flight g)), (0, [])%nat)
      end
  end.

(** A history of [L] events. *)
Definition history (s : system) (L : nat) (G : nat -> net) (ev : nat -> event)
    (out : nat -> nat * list effect) : Prop :=
  forall l, (l < L)%nat -> step s (G l) (ev l) = Some (G (S l), out l).

(** Executes a schedule. *)
Fixpoint run (s : system) (g : net) (es : list event) : option (net * list (nat * list effect)) :=
  match es with
  | [] => Some (g, [])
  | e :: es' =>
      match step s g e with
      | None => None
      | Some (g', o) => match run s g' es' with None => None | Some (g'', os) => Some (g'', o :: os) end
      end
  end.

(** The network and what happens after the first l events of a schedule. *)
Definition after (s : system) (g : net) (es : list event) (l : nat) : net :=
  match run s g (firstn l es) with Some (g', _) => g' | None => g end.
Definition event_at (es : list event) (l : nat) : event := nth l es (Timeout 0).
Definition done_at (s : system) (g : net) (es : list event) (l : nat) : nat * list effect :=
  match step s (after s g es l) (event_at es l) with Some (_, o) => o | None => (0, [])%nat end.

(** A delivery is in order if no earlier packet goes to the same channel of the
    same process.  A schedule of timeouts and such deliveries neither loses,
    copies nor reorders packets. *)
Definition in_order (g : net) (e : event) : bool :=
  match e with
  | Timeout _ => true
  | Deliver n =>
      match nth_error (flight g) n with
      | None => false
      | Some (i, k, _) =>
          forallb (fun x => negb ((fst (fst x) =? i) && (snd (fst x) =? k))%nat) (firstn n (flight g))
      end
  | Duplicate _ | Lose _ => false
  end.
Fixpoint reliable (s : system) (g : net) (es : list event) : bool :=
  match es with
  | [] => true
  | e :: es' =>
      in_order g e && match step s g e with None => false | Some (g', _) => reliable s g' es' end
  end.

(** * Well-formed generated code *)

(** Position j of channel k is used for reading: so are all positions before. *)
Definition reads_pos (d : iden) (k j : nat) : Prop :=
  forall i, (i <= j)%nat -> (vbl_of d k i false < nvbls d)%nat.
Definition writes_pos (d : iden) (k j : nat) : Prop :=
  forall i, (i <= j)%nat -> (vbl_of d k i true < nvbls d)%nat.
Definition in_domain (d : iden) (x : list nat) : Prop :=
  Forall2 (fun v D => (v < D)%nat) x (doms d).

(** What udp-ofile.cc generates for a protocol: both ends of a channel agree, a
    process keeps one copy of each variable it reads, and actions assign only
    variables that are not copies. *)
Definition well_formed (s : system) (nchan : nat -> nat) : Prop :=
  (forall i k, (i < nproc s)%nat -> (k < nchan i)%nat ->
     exists i' k', peer s i k = (i', k') /\ (i' < nproc s)%nat /\ (k' < nchan i')%nat /\ peer s i' k' = (i, k)) /\
  (forall i i', (i < nproc s)%nat -> (i' < nproc s)%nat -> nvbls (node s i) = nvbls (node s i')) /\
  (forall i, (i < nproc s)%nat -> (length (doms (node s i)) <= nvbls (node s i))%nat) /\
  (forall i k j, (i < nproc s)%nat -> (k < nchan i)%nat -> reads_pos (node s i) k j ->
     (j < nvbls (node s i))%nat /\
     (vbl_of (node s i) k j false < length (doms (node s i)))%nat /\
     (let (i', k') := peer s i k in
      writes_pos (node s i') k' j /\
      nth (vbl_of (node s i) k j false) (doms (node s i)) 0
        = nth (vbl_of (node s i') k' j true) (doms (node s i')) 0)%nat) /\
  (forall i k j k' j', (i < nproc s)%nat -> (k < nchan i)%nat -> (k' < nchan i)%nat ->
     reads_pos (node s i) k j -> reads_pos (node s i) k' j' ->
     vbl_of (node s i) k j false = vbl_of (node s i) k' j' false -> k = k' /\ j = j') /\
  (forall i x, (i < nproc s)%nat -> in_domain (node s i) x ->
     in_domain (node s i) (assume_assign (node s i) x) /\
     (forall c, in_domain (node s i) (action_assign (node s i) c x)) /\
     (forall k j, (k < nchan i)%nat -> reads_pos (node s i) k j ->
        nth (vbl_of (node s i) k j false) (assume_assign (node s i) x) 0
          = nth (vbl_of (node s i) k j false) x 0 /\
        forall c, nth (vbl_of (node s i) k j false) (action_assign (node s i) c x) 0
          = nth (vbl_of (node s i) k j false) x 0)%nat).

(** A start: nothing is on its way, values are in range, no process believes a
    neighbour has let it act. *)
Definition clean_start (s : system) (nchan : nat -> nat) (g : net) : Prop :=
  flight g = [] /\ length (proc g) = nproc s /\
  forall i, (i < nproc s)%nat ->
    length (channels (pst g i)) = nchan i /\ in_domain (node s i) (values (pst g i)) /\
    (enabled (pst g i) <> 0%N -> forall k, (k < nchan i)%nat -> adj_acknowledged (chan (pst g i) k) = false).

(** The sequence id of process i on channel k. *)
Definition id_of (g : net) (i k : nat) : SeqId := seq (chan (pst g i) k).

(** A new id is not the destination id of a packet still on its way to it. *)
Definition fresh_ids (L : nat) (G : nat -> net) : Prop :=
  forall l i k p, (l < L)%nat -> id_of (G (S l)) i k <> id_of (G l) i k ->
    In (i, k, p) (flight (G l)) -> dst_seq p <> id_of (G (S l)) i k.

(** The value the neighbour has for position j of channel k of process i. *)
Definition neighbour_value (s : system) (g : net) (i k j : nat) : nat :=
  let (i', k') := peer s i k in nth (vbl_of (node s i') k' j true) (values (pst g i')) 0%nat.

(** Process i acts in event l on the values [x]. *)
Definition acts (out : nat -> nat * list effect) (l i : nat) (x : list nat) : Prop :=
  fst (out l) = i /\ exists y, In (Hook x y) (snd (out l)).

(** * Interleaving semantics of the protocol *)

(** Variables that are not copies. *)
Definition owned (s : system) (nchan : nat -> nat) (i v : nat) : Prop :=
  forall k j, (k < nchan i)%nat -> reads_pos (node s i) k j -> vbl_of (node s i) k j false <> v.

(** [W i] are the values of process i.  [x] is what process i sees: its own
    variables, and for each copy the current value at the neighbour. *)
Definition view (s : system) (nchan : nat -> nat) (W : nat -> list nat) (i : nat) (x : list nat) : Prop :=
  length x = length (W i) /\
  (forall k j, (k < nchan i)%nat -> reads_pos (node s i) k j ->
     nth (vbl_of (node s i) k j false) x 0
       = let (i', k') := peer s i k in nth (vbl_of (node s i') k' j true) (W i') 0)%nat /\
  (forall v, owned s nchan i v -> nth v x 0 = nth v (W i) 0)%nat.

(** Some process acts on what it sees. *)
Definition atomic_step (s : system) (nchan : nat -> nat) (W W' : nat -> list nat) : Prop :=
  exists i c x, (i < nproc s)%nat /\ view s nchan W i x /\
    W' i = action_assign (node s i) c x /\ forall i', i' <> i -> W' i' = W i'.
Inductive atomically (s : system) (nchan : nat -> nat) (W : nat -> list nat) : (nat -> list nat) -> Prop :=
  | at_start : atomically s nchan W W
  | at_step : forall W1 W2, atomically s nchan W W1 -> atomic_step s nchan W1 W2 -> atomically s nchan W W2.

(** All copies in [g] agree with the originals. *)
Definition coherent (s : system) (nchan : nat -> nat) (g : net) : Prop :=
  forall i, (i < nproc s)%nat -> view s nchan (fun j => values (pst g j)) i (values (pst g i)).

(** * Single events *)
(** [y] is reached from [x] by executing the recorded actions one after the other. *)
Inductive actions (d : iden) : list nat -> list effect -> list nat -> Prop :=
  | no_actions : forall x, actions d x [] x
  | one_action : forall c x out y, action_assign d c x <> x -> actions d (action_assign d c x) out y ->
      actions d x (Hook x (action_assign d c x) :: out) y.

(** The packet [p] for channel k has the values process state [st] sends there. *)
Definition carries (d : iden) (st : State) (k : nat) (p : Packet) : Prop :=
  length (pvals p) = nvbls d /\
  forall j, writes_pos d k j -> (j < nvbls d)%nat ->
    nth j (pvals p) 0%nat = nth (vbl_of d k j true) (values st) 0%nat.

(** The n bytes of a word, least and most significant first, and how a host
    stores it. *)
Fixpoint little_endian (n : nat) (x : N) : list N :=
  match n with O => [] | S n' => (x mod 256)%N :: little_endian n' (x / 256)%N end.
Definition big_endian (n : nat) (x : N) : list N := rev (little_endian n x).
Definition memory (little : bool) (n : nat) (x : N) : list N :=
  if little then little_endian n x else big_endian n x.
