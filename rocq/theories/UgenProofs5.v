(** Generated UDP code: the parts put together. *)
From Coq Require Import NArith.
From Verif Require Import UdpModel UdpSpec.
From Coq Require Import List Arith Bool Lia.
From Verif Require Import FinLib Radix FmlaModel FmlaSpec FmlaProofs FmlaProofs2 FmlaProofs3 FmlaProofs4 FmlaProps ActModel ActSpec ActProofs ActProofs2 ActProofs4 ActProps NetModel NetSpec NetProofs NetProofs2 NetProofs3 NetProofs4 NetProofs5 CandModel CandSpec CandProofs GivenSpec GivenProofs SyncProofs UgenModel UgenProofs UgenSpec UgenProofs2 UgenProofs3 UgenProofs4.
Import ListNotations.

Section File.
Variables (T O : network) (fl : nat) (lw : bool) (actions : list nat) (F : udp_file).
Hypothesis HO : net_ok O.
Hypothesis GEN : gen_udp_file fl lw T O actions = Some F.
Notation n := (length (pcs O)).
Notation poc := (exec_process_of_channel (f_process_of_channel F)).
Notation voc := (exec_variable_of_channel (f_variable_of_channel F) (f_nvariables F)).
Notation chs := (UgenProofs2.chs O).

Lemma fields : f_nvariables F = max_nvbls O /\ f_nchannels F = max_nchannels O /\ f_nprocesses F = n /\
  f_process_of_channel F = gen_process_of_channel O /\ f_variable_of_channel F = gen_variable_of_channel O /\
  f_domsz F = gen_domsz T O /\ all_some (per_kind T O (gen_assume_kind T fl)) = Some (f_assume F) /\
  all_some (per_kind T O (gen_action_kind T lw fl actions)) = Some (f_action F).
Proof.
  unfold gen_udp_file in GEN. destruct (all_some (per_kind T O (gen_assume_kind T fl))) as [a|]; [|discriminate].
  destruct (all_some (per_kind T O (gen_action_kind T lw fl actions))) as [b|]; [|discriminate].
  injection GEN as <-. cbn. repeat split; reflexivity.
Qed.
Lemma nch_eq : forall i, i < n -> n_channels F i = length (chs i).
Proof. destruct fields as (_ & F2 & _ & F4 & _). apply count_channels_eq; auto. Qed.
Lemma nch_max : forall i, i < n -> n_channels F i <= f_nchannels F.
Proof.
  destruct fields as (_ & F2 & _). intros i H. rewrite nch_eq, F2 by auto. apply max_le. apply in_map. apply nth_In.
  destruct (chans_spec O (range_ok O HO)) as (L & _). rewrite L, n_tables. auto.
Qed.
Lemma poc_self : forall i k, i < n -> (poc i k = i <-> n_channels F i <= k).
Proof.
  destruct fields as (_ & _ & _ & F4 & _). intros i k H. rewrite nch_eq by auto. rewrite F4. split.
  - intros E. destruct (Nat.le_gt_cases (length (chs i)) k) as [L|L]; auto. exfalso.
    destruct (poc_in O i k H L) as (C & _). rewrite E in C. apply (chs_to O HO) in C; auto. destruct C as (C & _). auto.
  - intros L. rewrite poc_eq by auto. apply nth_overflow. rewrite map_length. auto.
Qed.
Lemma poc_lt : forall i k, i < n -> k < n_channels F i -> poc i k < n.
Proof.
  destruct fields as (_ & _ & _ & F4 & _). intros i k H L. rewrite nch_eq in L by auto. rewrite F4.
  destruct (poc_in O i k H L) as (C & _). apply (chs_sym O HO) in C; auto. apply C.
Qed.
Lemma poc_inj : forall i k k', i < n -> k < n_channels F i -> poc i k = poc i k' -> k = k'.
Proof.
  intros i k k' H L E. destruct (Nat.le_gt_cases (n_channels F i) k') as [M|M].
  - apply poc_self in M; auto. rewrite M in E. apply poc_self in E; auto. lia.
  - destruct fields as (_ & _ & _ & F4 & _). rewrite nch_eq in L, M by auto. rewrite F4 in E. rewrite !poc_eq in E by auto.
    pose proof (chs_nodup O HO i H) as ND. rewrite NoDup_nth in ND. apply (ND k k'); rewrite ?map_length; auto.
    rewrite (nth_indep _ 0 i) by (rewrite map_length; auto). rewrite (nth_indep _ 0 i) by (rewrite map_length; auto). exact E.
Qed.
Lemma channel_from_spec : forall o i m k0, o < n -> (exists k, k0 <= k < k0 + m /\ poc o k = i) -> k0 + m <= n_channels F o ->
  let k := channel_from m F o i k0 in k0 <= k < k0 + m /\ poc o k = i.
Proof.
  intros o i m. induction m as [|m IH]; intros k0 Ho (k & L & E) M; [lia|]. cbn [channel_from].
  destruct (Nat.eqb_spec (poc o k0) i) as [D|D]; [cbv zeta; split; [lia|auto]|].
  destruct (Nat.eq_dec k k0) as [->|X]; [contradiction|]. destruct (IH (S k0) Ho) as (A & B); [exists k; split; [lia|auto]|lia|].
  cbv zeta. split; [lia|auto].
Qed.
Lemma back : forall i k, i < n -> k < n_channels F i -> let o := poc i k in exists k', k' < n_channels F o /\ poc o k' = i /\ peer_of F i k = (o, k').
Proof.
  intros i k H L o. assert (Ho : o < n) by (apply poc_lt; auto).
  assert (E : exists k', k' < n_channels F o /\ poc o k' = i).
  { destruct fields as (_ & _ & _ & F4 & _). pose proof L as L'. rewrite nch_eq in L' by auto.
    destruct (poc_in O i k H L') as (C & _). rewrite <- F4 in C. fold o in C. apply (chs_sym O HO) in C; auto. destruct C as (_ & C).
    apply In_nth with (d := o) in C. destruct C as (k' & A & B). rewrite map_length in A. exists k'. rewrite nch_eq by auto. split; auto.
    rewrite F4. rewrite poc_eq by auto. exact B. }
  destruct E as (k0 & A0 & B0). destruct (channel_from_spec o i (n_channels F o) 0 Ho) as (A & B); [exists k0; split; [lia|auto]|lia|].
  exists (channel_from (n_channels F o) F o i 0). split; [lia|]. split; auto.
Qed.
Lemma peer_back : forall i k, i < n -> k < n_channels F i -> exists i' k', peer_of F i k = (i', k') /\ i' < n /\ k' < n_channels F i' /\ peer_of F i' k' = (i, k).
Proof.
  intros i k H L. destruct (back i k H L) as (k' & A & B & C). set (o := poc i k) in *. exists o, k'. split; auto.
  assert (Ho : o < n) by (apply poc_lt; auto). split; auto. split; auto.
  destruct (back o k' Ho A) as (k2 & A2 & B2 & C2). rewrite B in *. rewrite C2. f_equal. apply (poc_inj i); auto.
Qed.

(** The variables received on channel k of i and sent by its peer. *)
Definition link (i k : nat) : list nat := map g_vbl (filter (fun g => owner O (g_vbl g) =? poc i k) (vars O i)).
Lemma receive_link : forall i k, i < n -> k < n_channels F i -> to_receive O i k = link i k.
Proof.
  intros i k H L. pose proof L as L'. rewrite nch_eq in L' by auto. rewrite (to_receive_eq O HO) by auto. unfold link.
  destruct (poc_in O i k H L') as (_ & E). destruct fields as (_ & _ & _ & F4 & _). rewrite F4, E. reflexivity.
Qed.
Lemma send_link : forall i k k', i < n -> k < n_channels F i -> peer_of F i k = (poc i k, k') -> to_send O (poc i k) k' = link i k.
Proof.
  intros i k k' H L E. destruct (back i k H L) as (k2 & A & B & C). rewrite C in E. injection E as E. subst k2.
  assert (Ho : poc i k < n) by (apply poc_lt; auto). pose proof A as A'. rewrite nch_eq in A' by auto. rewrite (to_send_eq O HO) by auto. unfold link.
  destruct (poc_in O (poc i k) k' Ho A') as (_ & X). destruct fields as (_ & _ & _ & F4 & _). rewrite F4 in B at 1. rewrite X in B.
  rewrite B. reflexivity.
Qed.
Lemma voc_read : forall i k j, i < n -> k < n_channels F i -> voc i k j false = if j <? length (link i k) then local_idx (vars O i) (nth j (link i k) 0) else f_nvariables F.
Proof.
  intros i k j H L. destruct fields as (_ & _ & _ & _ & F5 & _). rewrite F5, voc_eq by auto. cbv zeta. rewrite receive_link by auto. reflexivity.
Qed.
Lemma voc_write : forall i k k' j, i < n -> k < n_channels F i -> peer_of F i k = (poc i k, k') ->
  voc (poc i k) k' j true = if j <? length (link i k) then local_idx (vars O (poc i k)) (nth j (link i k) 0) else f_nvariables F.
Proof.
  intros i k k' j H L E. destruct fields as (_ & _ & _ & _ & F5 & _). rewrite F5. rewrite voc_eq by (apply poc_lt; auto). cbv zeta.
  rewrite (send_link i k k') by auto. reflexivity.
Qed.
Lemma link_in : forall i k v, i < n -> In v (link i k) -> exists p, nth_error (pcs O) i = Some p /\ In v (screen O p) /\ owner O v = poc i k.
Proof.
  intros i k v H I. apply in_map_iff in I. destruct I as (g & <- & I). apply filter_In in I. destruct I as (I & E). apply Nat.eqb_eq in E.
  destruct (var_in O i g I) as (p & A & B). eauto.
Qed.
Lemma owner_cell : forall i p v, nth_error (pcs O) i = Some p -> In v (screen O p) -> exists q, nth_error (pcs O) (owner O v) = Some q /\ In v (screen O q).
Proof.
  intros i p v H I. rewrite <- screen_vars in I. apply in_map_iff in I. destruct I as (g & <- & I). rewrite <- (vars_eq O i p H) in I.
  destruct (owner_of_var O (range_ok O HO) i g I) as (_ & g' & I' & E). destruct (var_in O _ g' I') as (q & A & B). rewrite E in B. eauto.
Qed.
Lemma place_lt : forall i p v, nth_error (pcs O) i = Some p -> In v (screen O p) -> local_idx (vars O i) v < f_nvariables F /\ cell O i (local_idx (vars O i) v) v.
Proof.
  intros i p v H I. pose proof (local_idx_spec O HO i p v H I) as X. split; [|exists p; auto].
  assert (Y : local_idx (vars O i) v < length (screen O p)) by (apply nth_error_Some; rewrite X; discriminate).
  pose proof (screen_max O i p H). destruct fields as (-> & _). lia.
Qed.
Lemma link_short : forall i k, i < n -> length (link i k) <= f_nvariables F.
Proof.
  intros i k H. destruct (pc_at O HO i H) as (p & Hp). unfold link. rewrite map_length. pose proof (screen_max O i p Hp) as M. destruct fields as (-> & _).
  assert (X : length (filter (fun g => owner O (g_vbl g) =? poc i k) (vars O i)) <= length (vars O i)).
  { induction (vars O i) as [|g l IH]; cbn; auto. destruct (_ =? _); cbn; lia. }
  rewrite (vars_eq O i p Hp) in *. rewrite <- screen_vars, map_length in M. lia.
Qed.
Lemma read_iff : forall i k j, i < n -> k < n_channels F i -> (voc i k j false < f_nvariables F <-> j < length (link i k)).
Proof.
  intros i k j H L. rewrite voc_read by auto. destruct (Nat.ltb_spec j (length (link i k))) as [X|X]; [|lia]. split; auto. intros _.
  destruct (link_in i k (nth j (link i k) 0) H) as (p & Hp & I & _); [apply nth_In; auto|]. apply (place_lt i p); auto.
Qed.
Lemma link_owned : forall i k v, i < n -> In v (link i k) -> exists q, nth_error (pcs O) (poc i k) = Some q /\ In v (screen O q).
Proof. intros i k v H I. destruct (link_in i k v H I) as (p & Hp & J & E). rewrite <- E. apply (owner_cell i p); auto. Qed.
Lemma write_iff2 : forall i k k' j, i < n -> k < n_channels F i -> peer_of F i k = (poc i k, k') ->
  (voc (poc i k) k' j true < f_nvariables F <-> j < length (link i k)).
Proof.
  intros i k k' j H L E. rewrite (voc_write i k k') by auto. destruct (Nat.ltb_spec j (length (link i k))) as [X|X]; [|lia]. split; auto. intros _.
  destruct (link_owned i k (nth j (link i k) 0) H) as (q & Hq & I); [apply nth_In; auto|]. apply (place_lt _ q); auto.
Qed.
Lemma ends_agree : forall i k k' j, i < n -> k < n_channels F i -> peer_of F i k = (poc i k, k') -> j < length (link i k) ->
  exists v, cell O i (voc i k j false) v /\ cell O (poc i k) (voc (poc i k) k' j true) v /\ v = nth j (link i k) 0.
Proof.
  intros i k k' j H L E J. exists (nth j (link i k) 0). rewrite voc_read by auto. rewrite (voc_write i k k') by auto.
  assert (J' : (j <? length (link i k)) = true) by (apply Nat.ltb_lt; auto). rewrite J'.
  assert (X : In (nth j (link i k) 0) (link i k)) by (apply nth_In; auto).
  destruct (link_in i k _ H X) as (p & Hp & I & _). destruct (link_owned i k _ H X) as (q & Hq & I').
  split; [apply (place_lt i p); auto|]. split; auto. apply (place_lt _ q); auto.
Qed.
(** Every copy is fed by the owner. *)
Lemma fed : forall i p v, nth_error (pcs O) i = Some p -> In v (screen O p) -> i <> owner O v ->
  exists k j, k < n_channels F i /\ poc i k = owner O v /\ j < length (link i k) /\ nth j (link i k) 0 = v.
Proof.
  intros i p v H I D. assert (Hi : i < n) by (apply nth_error_Some; rewrite H; discriminate).
  pose proof I as I0. rewrite <- screen_vars in I. apply in_map_iff in I. destruct I as (g & E & I). rewrite <- (vars_eq O i p H) in I.
  assert (C : channel_to (owner O v) (chs i)). { apply (chs_to O HO); auto. split; auto. left. exists g. rewrite E. auto. }
  apply In_nth with (d := i) in C. destruct C as (k & A & B). rewrite map_length in A.
  assert (P : poc i k = owner O v). { destruct fields as (_ & _ & _ & -> & _). rewrite poc_eq by auto. auto. }
  assert (X : In v (link i k)). { apply in_map_iff. exists g. split; auto. apply filter_In. split; auto. apply Nat.eqb_eq. rewrite E. auto. }
  apply In_nth with (d := 0) in X. destruct X as (j & X1 & X2). exists k, j. rewrite nch_eq by auto. auto.
Qed.
Lemma writes_iff : forall p m, m < length (screen O p) -> (writes_cell O p m <-> write_ck (acc (kind_of O p) (nth m (puppets (kind_of O p)) 0)) = true).
Proof. intros p m L. rewrite write_iff. reflexivity. Qed.
Lemma writes_gvar : forall i v, writes_var O i v <-> exists g, In g (vars O i) /\ g_vbl g = v /\ g_writing g = true.
Proof.
  intros i v. split.
  - intros (p & m & Hp & E & W). assert (L : m < length (screen O p)) by (apply nth_error_Some; rewrite E; discriminate).
    apply writes_iff in W; auto. exists (nth m (udp_vbls O p) (mkVar 0 0 false)). rewrite (vars_eq O i p Hp).
    assert (L2 : m < length (puppets (kind_of O p))). { unfold screen in L. rewrite map_length in L. exact L. }
    unfold udp_vbls. set (f := fun i0 : nat => _). split; [apply nth_In; rewrite map_length; auto|].
    rewrite (nth_indep _ _ (f 0)) by (rewrite map_length; auto). rewrite map_nth. cbn [g_vbl g_writing f]. split; auto.
    unfold screen in E. rewrite nth_error_nth' with (d := vbl_at p 0) in E by auto. injection E as E. rewrite map_nth in E. exact E.
  - intros (g & I & E & W). destruct (nth_error (pcs O) i) as [p|] eqn:Hp.
    + rewrite (vars_eq O i p Hp) in I. unfold udp_vbls in I. apply in_map_iff in I. destruct I as (a & <- & I). cbn in E, W.
      apply In_nth with (d := 0) in I. destruct I as (m & L & N). exists p, m. split; auto.
      assert (X : nth_error (screen O p) m = Some v).
      { unfold screen. change (shown (its_kind O p)) with (puppets (kind_of O p)). rewrite nth_error_nth' with (d := vbl_at p 0) by (rewrite map_length; auto).
        rewrite map_nth. rewrite N. f_equal. exact E. }
      split; auto. apply writes_iff; [apply nth_error_Some; rewrite X; discriminate|]. rewrite N. exact W.
    + exfalso. apply nth_error_None in Hp. unfold vars in I. rewrite nth_overflow in I by (rewrite n_tables; auto). destruct I.
Qed.
Lemma owner_writes_var : forall i v, writes_var O i v -> writes_var O (owner O v) v.
Proof.
  intros i v H. apply writes_gvar in H. destruct H as (g & I & E & W). destruct (owner_writes O (range_ok O HO) i g I W) as (g' & I' & E' & W').
  apply writes_gvar. exists g'. rewrite <- E. rewrite E in *. repeat split; auto; congruence.
Qed.
End File.
