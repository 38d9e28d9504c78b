(** C77 and C78: the code that udp-ofile.cc generates. *)
From Coq Require Import NArith.
From Verif Require Import UdpModel UdpSpec UdpProps.
From Coq Require Import List Arith Bool Lia.
From Verif Require Import FinLib Radix FmlaModel FmlaSpec ActModel ActSpec ActProps NetModel NetSpec NetProps SyncProofs UgenModel UgenProofs UgenSpec UgenProofs2 UgenProofs3 UgenProofs4 UgenProofs5 UgenProofs6 UgenProofs7.
Import ListNotations.

(** ** C77: channels and tables *)
(** The channels of a process are numbered from 0; the number after the last one leads to the
    process itself, which is how the runtime knows where they end.  They lead to other
    processes, each to a different one, and there is exactly one channel back. *)
Theorem C77_channels : forall fuel lw T O actions F, net_ok O -> gen_udp_file fuel lw T O actions = Some F ->
  let poc := exec_process_of_channel (f_process_of_channel F) in
  f_nprocesses F = length (pcs O) /\
  forall i, i < length (pcs O) ->
    n_channels F i <= f_nchannels F /\
    (forall k, poc i k = i <-> n_channels F i <= k) /\
    (forall k, k < n_channels F i -> poc i k < length (pcs O)) /\
    (forall k k', k < n_channels F i -> poc i k = poc i k' -> k = k') /\
    (forall k, k < n_channels F i -> exists k', k' < n_channels F (poc i k) /\ poc (poc i k) k' = i /\ peer_of F i k = (poc i k, k') /\
       peer_of F (poc i k) k' = (i, k)).
Proof.
  intros fl lw T O actions F HO G poc. split; [apply (fields T O fl lw actions F G)|]. intros i Hi.
  split; [apply (nch_max T O fl lw actions F HO G i Hi)|]. split; [intros k; apply (poc_self T O fl lw actions F HO G i k Hi)|].
  split; [intros k; apply (poc_lt T O fl lw actions F HO G i k Hi)|]. split; [intros k k'; apply (poc_inj T O fl lw actions F HO G i k k' Hi)|].
  intros k Lk. destruct (back T O fl lw actions F HO G i k Hi Lk) as (k' & A & B & C). exists k'. split; auto. split; auto. split; auto.
  destruct (peer_back T O fl lw actions F HO G i k Hi Lk) as (i' & k2 & D & _ & _ & E). rewrite C in D. injection D as <- <-. exact E.
Qed.
Print Assumptions C77_channels.

(** Sender and receiver of a channel agree: the j-th value received is kept in a cell of the same
    variable that the j-th value sent is taken from, and as many are sent as received.  Values are
    numbered without gaps and there are no more than a packet holds. *)
Theorem C77_ends_agree : forall fuel lw T O actions F, net_ok O -> gen_udp_file fuel lw T O actions = Some F ->
  let voc := exec_variable_of_channel (f_variable_of_channel F) (f_nvariables F) in
  forall i k i' k', i < length (pcs O) -> k < n_channels F i -> peer_of F i k = (i', k') ->
  exists n, n <= f_nvariables F /\ forall j,
    (voc i k j false < f_nvariables F <-> j < n) /\
    (voc i' k' j true < f_nvariables F <-> j < n) /\
    (j < n -> exists v, cell O i (voc i k j false) v /\ cell O i' (voc i' k' j true) v).
Proof.
  intros fl lw T O actions F HO G voc i k i' k' Hi Lk E. destruct (back T O fl lw actions F HO G i k Hi Lk) as (k2 & _ & _ & C).
  rewrite E in C. injection C as -> ->. exists (length (link O F i k)). split; [apply (link_short T O fl lw actions F HO G i k Hi)|]. intros j.
  split; [apply (read_iff T O fl lw actions F HO G i k j Hi Lk)|]. split; [apply (write_iff2 T O fl lw actions F HO G i k k2 j Hi Lk E)|].
  intros J. destruct (ends_agree T O fl lw actions F HO G i k k2 j Hi Lk E J) as (v & A & B & _). eauto.
Qed.
Print Assumptions C77_ends_agree.

(** Every variable has an owner, one that writes it if anybody does, and every other process that
    has the variable receives it from the owner. *)
Theorem C77_copies_fed : forall fuel lw T O actions F, net_ok O -> gen_udp_file fuel lw T O actions = Some F ->
  let poc := exec_process_of_channel (f_process_of_channel F) in
  let voc := exec_variable_of_channel (f_variable_of_channel F) (f_nvariables F) in
  forall v, (exists i m, cell O i m v) -> exists o, (exists m, cell O o m v) /\
    ((exists i, writes_var O i v) -> writes_var O o v) /\
    forall i m, cell O i m v -> i <> o -> exists k j, k < n_channels F i /\ poc i k = o /\ cell O i (voc i k j false) v.
Proof.
  intros fl lw T O actions F HO G poc voc v (i0 & m0 & (p0 & P0 & S0)). exists (owner O v).
  split; [|split].
  - destruct (owner_cell O HO i0 p0 v P0 (nth_error_In _ _ S0)) as (q & Q1 & Q2). apply In_nth_error in Q2. destruct Q2 as (m & Q2). exists m, q. auto.
  - intros (i & W). apply (owner_writes_var O HO i v W).
  - intros i m (p & P & S) D. destruct (fed T O fl lw actions F HO G i p v P (nth_error_In _ _ S) D) as (k & j & A & B & C & E). exists k, j. split; auto. split; auto.
    assert (Hi : i < length (pcs O)) by (apply nth_error_Some; rewrite P; discriminate).
    destruct (back T O fl lw actions F HO G i k Hi A) as (k' & _ & _ & X).
    destruct (ends_agree T O fl lw actions F HO G i k k' j Hi A X C) as (v' & Y & _ & Z). rewrite <- E, <- Z. exact Y.
Qed.
Print Assumptions C77_copies_fed.

(** The domain sizes: the cells of each process, then 0.  Max_NVariables is enough for all. *)
Theorem C77_sizes : forall fuel lw T O actions F, net_ok O -> same_protocol T O -> gen_udp_file fuel lw T O actions = Some F ->
  forall i p, nth_error (pcs O) i = Some p ->
  length (sizes (its_kind O p)) <= f_nvariables F /\
  (forall m, exec_domsz (f_domsz F) i m = nth m (sizes (its_kind O p)) 0) /\
  (forall m, m < length (sizes (its_kind O p)) -> exec_domsz (f_domsz F) i m <> 0) /\
  forall m v, cell O i m v -> exec_domsz (f_domsz F) i m = nth v (vdoms O) 0.
Proof.
  intros fl lw T O actions F HO SP G i p Hp. split; [|split; [|split]].
  - destruct (fields T O fl lw actions F G) as (-> & _). pose proof (screen_max O i p Hp) as M. unfold screen in M. unfold sizes. rewrite map_length in *. exact M.
  - intros m. apply (domsz_eq T O lw actions HO SP fl F G i p m Hp).
  - intros m L. rewrite (domsz_eq T O lw actions HO SP fl F G i p m Hp). unfold sizes in *. rewrite map_length in L.
    set (f := fun i0 : nat => a_dom _). rewrite (nth_indep _ 0 (f 0)) by (rewrite map_length; auto). rewrite map_nth. unfold f.
    pose proof (dom_pos O HO i p Hp (nth m (shown (its_kind O p)) 0) (nth_In _ _ L)) as X.
    change (nth (nth m (shown (its_kind O p)) 0) (accs (its_kind O p)) acc0) with (acc (kind_of O p) (nth m (shown (its_kind O p)) 0)). lia.
  - intros m v (p' & P & S). assert (p' = p) by congruence. subst p'. rewrite (domsz_eq T O lw actions HO SP fl F G i p m Hp).
    apply (dom_cell O HO i p m v Hp S).
Qed.
Print Assumptions C77_sizes.

(** The generated code is what the theorems about the runtime (C60, C61) ask for. *)
Theorem C77_runtime : forall T O lw actions fuel F,
  net_ok T -> net_ok O -> same_protocol T O -> proper_actions T actions ->
  2 * length (assignments (vdoms T)) < fuel -> gen_udp_file fuel lw T O actions = Some F ->
  (forall q v, In q (pcs T) -> In v (screen T q) -> ~ fickle T v) ->
  (forall q, In q (pcs T) -> visible_assume T q) ->
  separate O -> sole_writer O ->
  forall draws coin steps, well_formed (mkSys (f_nprocesses F) (iden_of F draws) coin (peer_of F) steps) (n_channels F).
Proof. intros T O lw actions fl F HT HO SP ACTS FL G ST VIS SEP SOLE draws coin steps. exact (wf T O lw actions HT HO SP ACTS fl F FL G ST VIS SEP SOLE draws coin steps). Qed.
Print Assumptions C77_runtime.

(** So when a process acts, each variable it does not write has a value its writer had at a time
    since which the process has been waiting under the same sequence id. *)
Theorem C77_regular_reads : forall T O lw actions fuel F,
  net_ok T -> net_ok O -> same_protocol T O -> proper_actions T actions ->
  2 * length (assignments (vdoms T)) < fuel -> gen_udp_file fuel lw T O actions = Some F ->
  (forall q v, In q (pcs T) -> In v (screen T q) -> ~ fickle T v) ->
  (forall q, In q (pcs T) -> visible_assume T q) ->
  separate O -> sole_writer O ->
  forall draws coin steps L G ev out,
  let s := mkSys (f_nprocesses F) (iden_of F draws) coin (peer_of F) steps in
  history s L G ev out -> clean_start s (n_channels F) (G 0) -> fresh_ids L G ->
  forall l i x m v o, l < L -> i < length (pcs O) -> UdpSpec.acts out l i x -> cell O i m v -> writes_var O o v -> i <> o ->
  exists t m' k, t <= l /\ cell O o m' v /\ nth m x 0 = nth m' (UdpModel.values (pst (G t) o)) 0 /\
    k < n_channels F i /\ fst (peer_of F i k) = o /\ forall t', t <= t' <= l -> UdpSpec.id_of (G t') i k = UdpSpec.id_of (G l) i k.
Proof.
  intros T O lw actions fl F HT HO SP ACTS FL GE ST VIS SEP SOLE draws coin steps L G ev out s H C FR l i x m v o Hl Hi A CE W D.
  pose proof (C77_runtime T O lw actions fl F HT HO SP ACTS FL GE ST VIS SEP SOLE draws coin steps) as WF. fold s in WF.
  pose proof (SOLE _ _ _ W (owner_writes_var O HO o v W)) as OW.
  destruct CE as (p & P & SC).
  destruct (fed T O fl lw actions F HO GE i p v P (nth_error_In _ _ SC)) as (k & j & F1 & F2 & F3 & F4); [congruence|].
  destruct (back T O fl lw actions F HO GE i k Hi F1) as (k' & B1 & B2 & B3).
  destruct (ends_agree T O fl lw actions F HO GE i k k' j Hi F1 B3 F3) as (v' & (p1 & Q1 & Q2) & X2 & X3).
  assert (EV : v' = v) by congruence. assert (p1 = p) by congruence. subst p1. rewrite EV in *. clear EV X3.
  assert (EM : exec_variable_of_channel (f_variable_of_channel F) (f_nvariables F) i k j false = m).
  { pose proof (SEP p (nth_error_In _ _ P)) as ND. rewrite NoDup_nth_error in ND. apply ND; [apply nth_error_Some; rewrite Q2; discriminate|congruence]. }
  assert (RP : forall j', j' <= j -> reads_pos (node s i) k j').
  { intros j' L' j2 L2. cbn. apply (read_iff T O fl lw actions F HO GE i k j2 Hi F1). lia. }
  destruct (C60_regular_reads s (n_channels F) L G ev out WF H C FR l i x k Hl A F1 (RP 0 ltac:(lia))) as (t & T1 & T2 & T3).
  exists t, (exec_variable_of_channel (f_variable_of_channel F) (f_nvariables F) o k' j true), k.
  assert (EO : exec_process_of_channel (f_process_of_channel F) i k = o) by congruence. rewrite EO in *.
  split; auto. split; auto. split.
  - specialize (T2 j (RP j (le_n j))). cbn [node s vbl_of iden_of] in T2. rewrite EM in T2. rewrite T2. unfold neighbour_value, s. cbn [peer node]. rewrite B3. reflexivity.
  - split; [exact F1|]. split; [rewrite B3; reflexivity|exact T3].
Qed.
Print Assumptions C77_regular_reads.
