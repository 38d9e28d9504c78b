(** Promela: what unroll_action lists. *)
From Coq Require Import NArith.
From Verif Require Import UdpModel UdpSpec.
From Coq Require Import String List Arith Bool ZArith Lia.
From Verif Require Import FinLib Radix ParseModel AccessModel AccessSpec PrintModel FmlaModel FmlaSpec FmlaProofs FmlaProofs2 FmlaProofs3 FmlaProofs4 FmlaProps
  ActModel ActSpec ActProofs ActProofs2 ActProofs4 ActProps NetModel NetSpec NetProofs NetProofs2 NetProofs3 NetProofs4 NetProofs5 NetProps
  CandModel CandSpec CandProofs GivenSpec GivenProofs SyncProofs UgenModel UgenProofs UgenSpec UgenProofs2 UgenProofs3 UgenProofs4 UgenProofs6 UgenProofs7
  CmdModel PmlModel PmlSpec.
Import ListNotations.
Local Open Scope list_scope.
Local Open Scope nat_scope.

Lemma fill_all : forall st pre, fill (seq (length pre) (length st)) st (pre ++ repeat 0 (length st)) = pre ++ st.
Proof.
  unfold fill. induction st as [|x st IH]; intros pre; cbn [length seq repeat combine fold_left]; auto. cbn [fst snd].
  assert (E : upd (pre ++ 0 :: repeat 0 (length st)) (length pre) x = (pre ++ [x]) ++ repeat 0 (length st)).
  { rewrite <- app_assoc. cbn [app]. induction pre as [|y pre IHp]; cbn; auto. f_equal. apply IHp. }
  rewrite E. replace (S (length pre)) with (length (pre ++ [x])) by (rewrite app_length; cbn; lia). rewrite IH, <- app_assoc. reflexivity.
Qed.

Lemma filter_all : forall A (f : A -> bool) l, (forall x, In x l -> f x = true) -> filter f l = l.
Proof. intros A f l. induction l as [|x l IH]; intros H; cbn; auto. rewrite (H x (or_introl eq_refl)). f_equal. apply IH. intros; apply H; cbn; auto. Qed.

Section Unroll.
Variable T : network.
Notation ds := (vdoms T).
Notation ok := (FmlaSpec.ok (vdoms T)).
Hypothesis HN : net_ok T.
Let INH : inhabited ds := inh T HN.
Section Process.
Variables (j : nat) (p : process).
Hypothesis Hj : nth_error (pcs T) j = Some p.
Let Hp : In p (pcs T) := nth_error_In _ _ Hj.
Notation kd := (kind_of T p).

Lemma rids_wf : wf_ids ds (unroll_rids T p).
Proof.
  apply Forall_forall. intros v H. apply in_map_iff in H. destruct H as (i & <- & I). apply filter_In in I. destruct I as (I & _). apply in_seq in I.
  apply (no_id _ HN p i Hp). apply I.
Qed.
Lemma wmap_lt : forall w, w < nw kd -> nth w (wmap kd) 0 < nr kd.
Proof. intros w L. assert (I : In (nth w (wmap kd) 0) (wmap kd)) by (apply nth_In; exact L). apply filter_In in I. destruct I as (I & _). apply in_seq in I. lia. Qed.
Lemma wids_wf : wf_ids ds (unroll_wids T p).
Proof.
  apply Forall_forall. intros v H. apply in_map_iff in H. destruct H as (w & <- & I). apply filter_In in I. destruct I as (I & _). apply in_seq in I.
  apply (no_id _ HN p (nth w (wmap kd) 0) Hp). apply wmap_lt. lia.
Qed.

Lemma img_loop_spec : forall fuel img, state_fmla ds img -> count T (fun t => eval img (join t t t)) < fuel ->
  exists l, img_loop T fuel p img = Some l /\ forall v, In v l <-> exists t, ok t /\ holds img t /\ v = values (unroll_wids T p) t.
Proof.
  induction fuel as [|fuel IH]; intros f SF C; [lia|]. cbn [img_loop]. destruct (sat_ck ds f) eqn:E.
  - destruct (pick_some T HN f (unroll_wids T p) wids_wf E) as (st & -> & b & i & t0 & B & I & T0 & M & V).
    assert (LS : length st = length (unroll_wids T p)) by (rewrite <- V; unfold values; rewrite map_length; auto).
    assert (H0 : holds f t0) by (unfold holds, meaning; rewrite <- (state_eval ds f SF b i t0 B I T0); auto).
    assert (OS : forall t, ok t -> (holds (of_state ds st (unroll_wids T p)) t <-> values (unroll_wids T p) t = st)).
    { intros t Tt. apply (C57_of_state_exact ds st (unroll_wids T p) wids_wf LS t t Tt Tt). }
    destruct (IH (nimp_PFmla f (of_state ds st (unroll_wids T p)))) as (cs & EL & HL).
    + apply nimp_is_state; auto. apply of_state_is_state. apply wids_wf.
    + enough (count T (fun t => eval (nimp_PFmla f (of_state ds st (unroll_wids T p))) (join t t t)) < count T (fun t => eval f (join t t t))) by lia.
      apply count_mono.
      * intros t Tt H. apply (nimp_state f _ t) in H. apply H.
      * exists t0. split; auto. split; auto. apply not_true_iff_false. intros H. apply (nimp_state f _ t0) in H. destruct H as (_ & H). apply H, OS; auto.
    + rewrite EL. eexists. split; [reflexivity|]. intros v. cbn [In]. rewrite HL. split.
      * intros [<-|(t & Tt & H & X)]; [exists t0; auto|]. apply nimp_state in H. exists t. tauto.
      * intros (t & Tt & H & ->). destruct (list_eq_dec Nat.eq_dec (values (unroll_wids T p) t) st) as [D|D]; [left; auto|].
        right. exists t. split; auto. split; auto. apply nimp_state. split; auto. rewrite OS; auto.
  - exists []. split; auto. intros v. split; [intros []|]. intros (t & Tt & H & _).
    enough (sat_ck ds f = true) by congruence. apply (sat_state ds INH); auto. eauto.
Qed.

Lemma pre_loop_spec : forall fuel x, trans_fmla ds x -> count T (enabled_b T x) + length (assignments ds) < fuel ->
  exists l, pre_loop T fuel p x = Some l /\
    forall v, In v l <-> exists s t, ok s /\ ok t /\ steps x s t /\ v = filled kd (values (unroll_rids T p) s) (values (unroll_wids T p) t).
Proof.
  induction fuel as [|fuel IH]; intros x TX C; [lia|]. cbn [pre_loop]. destruct (sat_ck ds x) eqn:E.
  - destruct (pick_some T HN x (unroll_rids T p) rids_wf E) as (st & -> & b & i & s0 & B & I & S0 & M & V).
    assert (LS : length st = length (unroll_rids T p)) by (rewrite <- V; unfold values; rewrite map_length; auto).
    assert (H0 : steps x s0 i) by (unfold steps, meaning; rewrite <- (trans_eval ds x TX b i s0 B I S0); auto).
    cbv zeta. set (Q := of_state ds st (unroll_rids T p)) in *.
    assert (SQ : state_fmla ds Q) by (apply of_state_is_state, rids_wf).
    assert (OS : forall t, ok t -> (holds Q t <-> values (unroll_rids T p) t = st)).
    { intros t Tt. apply (C57_of_state_exact ds st (unroll_rids T p) rids_wf LS t t Tt Tt). }
    assert (NE : exists s, ok s /\ holds Q s) by (exists s0; split; auto; apply OS; auto).
    assert (NC : ~ const_true_on_empty ds x Q) by (intros (_ & _ & H); destruct NE as (s & S & HS); apply (H s S HS)).
    assert (POS : 0 < count T (enabled_b T x)).
    { unfold count. assert (IN : In s0 (filter (enabled_b T x) (assignments ds))).
      { apply filter_In. split; [apply in_assignments; auto|]. apply GivenProofs.enabled_iff. eauto. }
      destruct (filter _ _); [destruct IN|cbn; lia]. }
    destruct (img_loop_spec fuel (img1_PFmla ds x Q)) as (cs & E1 & H1).
    { apply img1_is_state; auto. }
    { pose proof (count_le T (fun t => eval (img1_PFmla ds x Q) (join t t t))). lia. }
    destruct (IH (nimp_PFmla x Q)) as (cls & E2 & H2).
    { apply nimp_is_trans; auto. }
    { enough (count T (enabled_b T (nimp_PFmla x Q)) < count T (enabled_b T x)) by lia. apply count_mono.
      - intros s S H. apply GivenProofs.enabled_iff in H. destruct H as (t & Tt & H). apply (nimp_steps T) in H; auto. apply GivenProofs.enabled_iff. exists t. tauto.
      - exists s0. split; auto. split; [apply GivenProofs.enabled_iff; eauto|]. apply not_true_iff_false. intros H. apply GivenProofs.enabled_iff in H. destruct H as (t & Tt & H).
        apply (nimp_steps T) in H; auto. destruct H as (_ & H). apply H, OS; auto. }
    rewrite E1, E2. eexists. split; [reflexivity|]. intros v. rewrite in_app_iff, in_map_iff, H2. split.
    + intros [(img & <- & A)|(s & t & S & Tt & A & ->)].
      * apply H1 in A. destruct A as (t & Tt & A & ->). apply (img1_state ds) in A; auto. destruct A as (s & S & A & HQ). apply OS in HQ; auto. exists s, t. rewrite HQ. auto.
      * apply (nimp_steps T) in A; auto. exists s, t. tauto.
    + intros (s & t & S & Tt & A & ->). destruct (list_eq_dec Nat.eq_dec (values (unroll_rids T p) s) st) as [D|D].
      * left. exists (values (unroll_wids T p) t). rewrite D. split; auto. apply H1. exists t. split; auto. split; auto. apply (img1_state ds); auto. exists s. split; auto. split; auto. apply OS; auto.
      * right. exists s, t. split; auto. split; auto. split; auto. apply (nimp_steps T); auto. split; auto. intros X. apply OS in X; auto.
  - exists []. split; auto. intros v. split; [intros []|]. intros (s & t & S & Tt & H & _).
    enough (sat_ck ds x = true) by congruence. apply (sat_trans ds INH); auto. eauto.
Qed.

Variables (lw : bool) (a : nat).
Hypothesis Ha : a < actions_in (kinds T).
Hypothesis Hr : representative_action_index (kinds T) a = Some a.
Hypothesis RP : representative T (act_pc (act_of (kinds T) a)) = Some (j, p).
Hypothesis KP : p_kind p = act_pc (act_of (kinds T) a).
Lemma unroll_spec : forall fuel, 2 * length (assignments ds) < fuel -> exists l, unroll_action T lw fuel a = Some l /\
  forall b, In b l <-> act_pc b = p_kind p /\ exists s t, ok s /\ ok t /\ process_step T (action_xfmlae T lw a) j s t /\ holds (p_assume p) s /\
     vals b = filled kd (values (unroll_rids T p) s) (values (unroll_wids T p) t).
Proof.
  intros fuel F. unfold unroll_action. change (action_pcsymm_index (kinds T) a) with (act_pc (act_of (kinds T) a)). rewrite RP. cbn [fst snd].
  pose proof (net_rep_means T HN lw a Ha Hr j p Hj KP) as ((W & TX & WO & MK) & E). cbn [xn proc_of wvbls mask] in W, TX, WO.
  set (x := represented_xns_of_pc T lw a (j, p)) in *. pose proof (no_assume _ HN p Hp) as SA.
  destruct (pre_loop_spec fuel (and_PFmla x (p_assume p))) as (l & EL & HL).
  { apply and_trans; auto. apply state_trans; auto. }
  { pose proof (count_le T (enabled_b T (and_PFmla x (p_assume p)))). lia. }
  rewrite EL. eexists. split; [reflexivity|]. intros b. rewrite in_map_iff. rewrite <- KP. split.
  - intros (v & <- & I). split; [reflexivity|]. apply HL in I. destruct I as (s & t & S & Tt & A & ->). apply (steps_and_state ds) in A; auto. destruct A as (A & AS).
    assert (OM := over_ok ds (written T p) t s Tt S). exists s, (over ds (written T p) t s). split; auto. split; auto.
    assert (AG : forall k, In k (written T p) -> nth k t 0 = nth k (over ds (written T p) t s) 0).
    { intros k Hk. unfold wf_ids in W. rewrite Forall_forall in W. rewrite over_in; auto. }
    split; [|split; auto].
    + apply E; auto. split.
      * cbn [xn proc_of]. apply (WO s t (over ds (written T p) t s) s); auto.
      * cbn [wvbls proc_of]. apply agree_sym, over_agree.
    + cbn [vals]. f_equal. unfold values. apply map_ext_in. intros k Hk. apply AG. unfold unroll_wids in Hk. apply in_map_iff in Hk. destruct Hk as (w & <- & Hw).
      apply filter_In in Hw. unfold written. apply in_or_app. left. apply in_map. apply Hw.
  - intros (K & s & t & S & Tt & A & AS & V). exists (vals b). split; [destruct b as [k v]; cbn in *; subst k; reflexivity|]. apply HL. exists s, t. split; auto. split; auto. split; auto.
    apply (steps_and_state ds); auto. split; auto. apply E in A; auto. apply A.
Qed.
End Process.

Lemma unroll_none : forall lw fuel a, representative T (act_pc (act_of (kinds T) a)) = None -> unroll_action T lw fuel a = Some [].
Proof. intros lw fuel a H. unfold unroll_action. change (action_pcsymm_index (kinds T) a) with (act_pc (act_of (kinds T) a)). rewrite H. reflexivity. Qed.

(** ** Without shadow variables and randomness *)
Hypothesis PL : plain_kinds (kinds T).
Section Plain.
Variables (j : nat) (p : process).
Hypothesis Hj : nth_error (pcs T) j = Some p.
Let Hp : In p (pcs T) := nth_error_In _ _ Hj.
Notation kd := (kind_of T p).
Lemma kd_in : In kd (kinds T).
Proof. apply nth_In. apply (no_kind _ HN p Hp). Qed.
Lemma acc_plain : forall i, i < nr kd -> a_role (acc kd i) <> Shadow /\ a_type (acc kd i) <> RandomReadAccess /\ a_type (acc kd i) <> RandomWriteAccess.
Proof. intros i L. apply (PL kd _ kd_in). apply nth_In. exact L. Qed.
Lemma reads_all : unroll_reads kd = seq 0 (nr kd).
Proof.
  unfold unroll_reads. apply filter_all. intros i I. apply in_seq in I. destruct (acc_plain i ltac:(lia)) as (A & B & C).
  unfold pure_shadow_ck, synt_writeonly_ck, synt_read_ck, puppet_ck, read_ck, write_ck. destruct (a_role (acc kd i)); try congruence; destruct (a_type (acc kd i)); auto; congruence.
Qed.
Lemma writes_all : unroll_writes kd = seq 0 (nw kd).
Proof.
  unfold unroll_writes. apply filter_all. intros w I. apply in_seq in I. assert (L : w < nw kd) by lia.
  destruct (acc_plain _ (wmap_lt p w L)) as (A & B & C). fold (waccess kd w) in *.
  assert (W : write_ck (waccess kd w) = true). { assert (X : In (nth w (wmap kd) 0) (wmap kd)) by (apply nth_In; exact L). apply filter_In in X. apply X. }
  unfold random_read_ck, random_write_ck, pure_shadow_ck. rewrite W. destruct (a_role (waccess kd w)); try congruence; destruct (a_type (waccess kd w)); auto; congruence.
Qed.
Lemma filled_plain : forall s t, filled kd (values (unroll_rids T p) s) (values (unroll_wids T p) t) =
  cells T p s ++ map (value t p) (wmap kd).
Proof.
  intros s t. unfold filled, unroll_rids, unroll_wids. rewrite reads_all, writes_all. 
  assert (R : values (map (rvbl p) (seq 0 (nr kd))) s = cells T p s).
  { unfold values, cells. rewrite map_map. rewrite (all_shown T HN PL j p Hj). reflexivity. }
  assert (W : values (map (wvbl T p) (seq 0 (nw kd))) t = map (value t p) (wmap kd)).
  { unfold values. rewrite map_map. unfold wvbl. change (fun x => nth (rvbl p (nth x (wmap kd) 0)) t 0) with (fun x => (fun i => value t p i) (nth x (wmap kd) 0)).
    rewrite <- (map_map (fun x => nth x (wmap kd) 0) (value t p)). f_equal. unfold nw. clear. induction (wmap kd) as [|y l IH]; cbn; auto. rewrite <- seq_shift, map_map. f_equal. exact IH. }
  rewrite R, W. f_equal.
  - assert (L : length (cells T p s) = nr kd) by (rewrite <- R; unfold values; rewrite !map_length, seq_length; reflexivity). rewrite <- L. apply (fill_all (cells T p s) []).
  - assert (L : length (map (value t p) (wmap kd)) = nw kd) by (rewrite map_length; reflexivity). rewrite <- L. apply (fill_all (map (value t p) (wmap kd)) []).
Qed.
End Plain.
End Unroll.
