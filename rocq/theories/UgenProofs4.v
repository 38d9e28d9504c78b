(** Generated UDP code: what action_assign and assume_assign do. *)
From Coq Require Import NArith.
From Verif Require Import UdpModel.
From Coq Require Import List Arith Bool Lia.
From Verif Require Import FinLib Radix FmlaModel FmlaSpec FmlaProofs FmlaProofs2 FmlaProofs3 FmlaProofs4 FmlaProps
  ActModel ActSpec ActProofs ActProofs2 ActProofs4 ActProps NetModel NetSpec NetProofs NetProofs2 NetProofs3 NetProofs4 NetProofs5
  CandModel CandSpec CandProofs GivenSpec GivenProofs UgenModel UgenProofs UgenSpec UgenProofs2 UgenProofs3.
Import ListNotations.

Lemma Forall2_nth_iff : forall x d, Forall2 lt x d <-> length x = length d /\ forall m, m < length d -> nth m x 0 < nth m d 0.
Proof.
  induction x as [|a x IH]; intros [|b d]; cbn [length].
  - split; [intros _; split; [auto|intros; lia]|constructor].
  - split; [intros H; inversion H|]. intros (H & _). discriminate.
  - split; [intros H; inversion H|]. intros (H & _). discriminate.
  - split.
    + intros H. inversion H as [|? ? ? ? H1 H2]; subst. apply IH in H2. destruct H2 as (L & H2). split; [lia|]. intros [|m] M; cbn [nth]; auto. apply H2. lia.
    + intros (L & H). constructor; [apply (H 0); lia|]. apply IH. split; [lia|]. intros m M. apply (H (S m)). lia.
Qed.

Section Act.
Variable T : network.
Notation ds := (vdoms T).
Notation ok := (FmlaSpec.ok (vdoms T)).
Hypothesis HN : net_ok T.
Let INH : inhabited ds := inh T HN.

Section Process.
Variables (j : nat) (p : process).
Hypothesis Hj : nth_error (pcs T) j = Some p.
Notation kd := (kind_of T p).
Let Hp : In p (pcs T) := nth_error_In _ _ Hj.

Lemma fits_iff : forall x, fits kd x <-> length x = length (puppets kd) /\ forall m, m < length (puppets kd) -> nth m x 0 < a_dom (acc kd (nth m (puppets kd) 0)).
Proof.
  intros x. unfold fits, sizes. change (shown kd) with (puppets kd). rewrite Forall2_nth_iff, map_length.
  assert (E : forall m, m < length (puppets kd) -> nth m (map (fun i => a_dom (nth i (accs kd) acc0)) (puppets kd)) 0 = a_dom (acc kd (nth m (puppets kd) 0))).
  { intros m M. apply nth_error_nth. apply (map_nth_error (fun i => a_dom (nth i (accs kd) acc0))). apply nth_error_nth'. auto. }
  split; intros (L & H); (split; [auto|]); intros m M; specialize (H m M); rewrite E in * by auto; auto.
Qed.
Lemma screen_nth : forall m, m < length (puppets kd) -> nth m (screen T p) 0 = rvbl p (nth m (puppets kd) 0).
Proof.
  intros m M. unfold screen. change (shown (its_kind T p)) with (puppets kd).
  rewrite nth_indep with (d' := vbl_at p 0) by (rewrite map_length; auto). rewrite (map_nth (vbl_at p)). reflexivity.
Qed.
Lemma screen_length : length (screen T p) = length (puppets kd).
Proof. unfold screen. rewrite map_length. reflexivity. Qed.
Lemma dom_pos : forall i, In i (puppets kd) -> 1 <= a_dom (acc kd i).
Proof.
  intros i Hi. assert (L : i < nr kd) by (apply (puppet_lt T p); auto).
  destruct (no_id _ HN p i Hp L) as (A & B & _). change (access_at T p i) with (acc kd i) in B. rewrite <- B.
  unfold inhabited in INH. rewrite Forall_forall in INH. apply INH. apply nth_In. auto.
Qed.

Lemma redrawn_iff : forall x x', fits kd x ->
  ((exists rs, redraw rs 0 (random_places T p) x = x') <-> redrawn T p x x').
Proof.
  intros x x' F. apply fits_iff in F. destruct F as (L & F).
  pose proof (redraw_iff (fun i => existsb (Nat.eqb (rvbl p i)) (random_vbls T)) (fun i => a_dom (acc kd i)) (puppets kd) [] 0 x x' L dom_pos) as R.
  cbn [length app] in R. unfold random_places. rewrite R. unfold redrawn. change (its_kind T p) with kd. rewrite fits_iff, screen_length.
  split.
  - intros (L' & H). split.
    + split; auto. intros m M. specialize (H m M). destruct (existsb _ _); auto. rewrite H. auto.
    + intros m M NF. rewrite screen_nth in NF by auto. specialize (H m M). destruct (existsb _ _) eqn:E; auto.
      apply random_iff in E; auto. contradiction.
  - intros ((L' & H) & K). split; auto. intros m M. destruct (existsb _ _) eqn:E; auto. apply K; auto. rewrite screen_nth by auto.
    intros X. apply (random_iff T p) in X. congruence.
Qed.

Variables (lw : bool) (actions : list nat).
Hypothesis ACTS : proper_actions T actions.
Lemma body_exec : forall fuel b, 2 * length (assignments ds) < fuel -> some_memb T (p_kind p) = Some (j, p) ->
  gen_action_kind T lw fuel actions (p_kind p) = Some b -> forall x, fits kd x -> forall y,
  (exists rs, exec_action_body b rs x = y) <-> action_result T lw actions j p x y.
Proof.
  intros fuel b F SM G x FX y. unfold gen_action_kind in G. rewrite SM in G.
  assert (EX : rep_xn T lw actions (p_kind p) = the_xn T lw actions j p) by (unfold rep_xn; rewrite SM; reflexivity).
  rewrite EX in G. destruct (clause_loop T fuel p (the_xn T lw actions j p)) as [cls|] eqn:EC; [|discriminate]. injection G as <-.
  unfold exec_action_body, action_result. cbn [x_random x_clauses].
  pose proof (clauses_exec T HN lw actions ACTS j p Hj fuel cls EC F) as CE.
  assert (LEN : forall x', redrawn T p x x' -> length x' = length (puppets kd)).
  { intros x' (H & _). apply fits_iff in H. apply H. }
  split.
  - intros (rs & E). cbv zeta in E. exists (redraw rs 0 (random_places T p) x).
    assert (R : redrawn T p x (redraw rs 0 (random_places T p) x)) by (apply redrawn_iff; eauto). split; auto.
    apply (CE x _ (LEN _ R) y). eauto.
  - intros (x' & R & H). apply (CE x x' (LEN _ R) y) in H. destruct H as (r & H). apply redrawn_iff in R; auto. destruct R as (rs & R).
    exists (fun m => if m <? length (random_places T p) then rs m else r). cbv zeta.
    assert (ER : redraw (fun m => if m <? length (random_places T p) then rs m else r) 0 (random_places T p) x = x').
    { rewrite <- R. apply redraw_ext. intros m M. destruct (Nat.ltb_spec m (length (random_places T p))); [auto|lia]. }
    rewrite ER. rewrite Nat.ltb_irrefl. exact H.
Qed.
Lemma body_some : forall fuel, 2 * length (assignments ds) < fuel -> some_memb T (p_kind p) = Some (j, p) ->
  exists b, gen_action_kind T lw fuel actions (p_kind p) = Some b.
Proof.
  intros fuel F SM. unfold gen_action_kind. rewrite SM.
  assert (EX : rep_xn T lw actions (p_kind p) = the_xn T lw actions j p) by (unfold rep_xn; rewrite SM; reflexivity). rewrite EX.
  assert (TX : trans_fmla ds (the_xn T lw actions j p)) by (destruct (the_means T HN lw actions ACTS j p Hj) as ((_ & TX & _) & _); exact TX).
  destruct (clause_spec T HN j p Hj fuel (the_xn T lw actions j p) TX) as (cls & -> & _).
  { pose proof (count_le T (enabled_b T (the_xn T lw actions j p))). lia. }
  eauto.
Qed.

(** ** Assumptions *)
Hypothesis ND : NoDup (p_vbls p).
Hypothesis VIS : visible_assume T p.
Let SA : state_fmla ds (p_assume p) := no_assume _ HN p Hp.

Lemma rvbl_inj : forall i i', i < nr kd -> i' < nr kd -> rvbl p i = rvbl p i' -> i = i'.
Proof.
  intros i i' H H' E. rewrite NoDup_nth with (d := 0) in ND. apply ND; auto; rewrite (no_vbls _ HN p Hp); auto.
Qed.
Lemma puppets_nodup : NoDup (puppets kd).
Proof. unfold puppets. apply NoDup_filter, seq_NoDup. Qed.
Lemma state_with : forall x, fits kd x -> exists s, ok s /\ cells T p s = x.
Proof.
  intros x F. unfold fits, sizes in F. unfold cells. change (shown (its_kind T p)) with (puppets kd). change (shown kd) with (puppets kd) in F.
  assert (G : forall l x, NoDup l -> (forall i, In i l -> i < nr kd) -> Forall2 lt x (map (fun i => a_dom (nth i (accs kd) acc0)) l) ->
    exists s, ok s /\ map (fun i => value s p i) l = x).
  { clear x F. induction l as [|i l IH]; intros [|x0 x] NL B F; [|inversion F|inversion F|inversion F as [|? ? ? ? H1 H3]; subst; clear F].
    - exists (map (fun _ => 0) ds). split; auto. apply zero_ok; auto.
    - inversion NL as [|? ? N1 N2]; subst. destruct (IH x N2 (fun q Hq => B q (or_intror Hq)) H3) as (s & S & E).
      pose proof (B i (or_introl eq_refl)) as Bi. destruct (no_id _ HN p i Hp Bi) as (A1 & A2 & _).
      exists (over ds [vbl_at p i] (upd s (vbl_at p i) x0) s).
      assert (LS : length s = length ds) by (apply ok_length; auto).
      split.
      + apply Forall2_nth_iff. split; [apply over_length|]. intros m M. rewrite over_nth by auto. cbn [existsb]. rewrite orb_false_r.
        destruct (Nat.eqb_spec m (vbl_at p i)) as [E1|E1].
        * subst m. rewrite nth_upd_same by lia. rewrite A2. exact H1.
        * apply ok_nth; auto.
      + cbn [map]. f_equal.
        * unfold value. rewrite over_in by (auto; cbn; auto). rewrite nth_upd_same by lia. auto.
        * rewrite <- E. apply map_ext_in. intros i' Hi'. unfold value. apply over_out.
          -- apply (no_id _ HN p i' Hp). apply B; cbn; auto.
          -- intros [X|[]]. apply N1. replace i with i'; auto. apply rvbl_inj; auto; apply B; cbn; auto. }
  apply G; auto; [apply puppets_nodup|]. intros i Hi. apply (puppet_lt T p); auto.
Qed.
Lemma cells_fit : forall s, ok s -> fits kd (cells T p s).
Proof.
  intros s S. unfold fits, sizes, cells. change (its_kind T p) with kd. change (shown kd) with (puppets kd).
  assert (B : forall i, In i (puppets kd) -> i < nr kd) by (intros; apply (puppet_lt T p); auto).
  revert B. generalize (puppets kd). induction l as [|i l IH]; intros B; cbn; constructor.
  - destruct (no_id _ HN p i Hp (B i (or_introl eq_refl))) as (A1 & A2 & _). change (nth i (accs kd) acc0) with (access_at T p i). unfold value. rewrite <- A2. apply ok_nth; auto.
  - apply IH. intros; apply B; cbn; auto.
Qed.

Definition mat (i : nat) : bool := negb (equiv_ck ds (p_assume p) (smooth_vbls ds (p_assume p) [rvbl p i] Pre)).
Lemma mat_false : forall i, i < nr kd -> mat i = false -> forall s t, ok s -> ok t -> agree_off ds [rvbl p i] s t ->
  (holds (p_assume p) s <-> holds (p_assume p) t).
Proof.
  intros i Hi M. apply negb_false_iff in M. pose proof (proj1 (equiv_iff ds INH _ _) M) as ME.
  assert (W : wf_ids ds [rvbl p i]) by (constructor; [apply (no_id _ HN p i Hp Hi)|constructor]).
  assert (G : forall s t, ok s -> ok t -> agree_off ds [rvbl p i] s t -> holds (p_assume p) s -> holds (p_assume p) t).
  { intros s t S Tt AG H. unfold holds, meaning. rewrite ME by auto. apply (ev_smooth_vbls ds); auto. exists t, t, s.
    do 4 (split; [auto|]). split; [auto|]. split; [auto|]. unfold holds, meaning in H. rewrite (state_eval ds _ SA t t s Tt Tt S). exact H. }
  intros s t S Tt AG. split; apply G; auto. intros k K NK. symmetry. apply AG; auto.
Qed.
Lemma mat_agree : forall s t, ok s -> ok t -> (forall i, In i (puppets kd) -> mat i = true -> value s p i = value t p i) ->
  (holds (p_assume p) s <-> holds (p_assume p) t).
Proof.
  intros s t S Tt H.
  set (W := fun l => over ds (map (rvbl p) l) t s).
  assert (OW : forall l, ok (W l)) by (intros; apply over_ok; auto).
  assert (G : forall l, (forall i, In i l -> In i (puppets kd)) -> (holds (p_assume p) s <-> holds (p_assume p) (W l))).
  { induction l as [|i l IH]; intros B.
    - unfold W. replace (over ds (map (rvbl p) []) t s) with s; [tauto|]. apply nth_ext with (d := 0) (d' := 0).
      + rewrite over_length. apply ok_length; auto.
      + intros m M. rewrite over_out; auto. rewrite <- (ok_length ds s S). auto.
    - rewrite IH by (intros; apply B; cbn; auto). pose proof (B i (or_introl eq_refl)) as Bi. assert (Li : i < nr kd) by (apply (puppet_lt T p); auto).
      destruct (mat i) eqn:M.
      + replace (W (i :: l)) with (W l); [tauto|]. unfold W. apply nth_ext with (d := 0) (d' := 0); [rewrite !over_length; auto|].
        intros m Hm. rewrite over_length in Hm. rewrite !over_nth by auto. cbn [map existsb]. destruct (Nat.eqb_spec m (rvbl p i)) as [E|E]; cbn [orb]; auto.
        subst m. destruct (existsb _ _); auto. apply (H i Bi M).
      + apply (mat_false i Li M); auto. intros k K NK. unfold W. rewrite !over_nth by auto. cbn [map existsb].
        destruct (Nat.eqb_spec k (rvbl p i)) as [E|E]; cbn [orb]; auto. exfalso. apply NK. cbn. auto. }
  rewrite (G (puppets kd)) by auto. apply VIS; auto. unfold cells. change (shown (its_kind T p)) with (puppets kd).
  apply map_ext_in. intros i Hi. unfold W, value. apply over_in.
  - apply (no_id _ HN p i Hp). apply (puppet_lt T p); auto.
  - apply in_map_iff. exists i. auto.
Qed.
Lemma assumed_iff : forall s, ok s -> (assumed T p (cells T p s) <-> holds (p_assume p) s).
Proof.
  intros s S. split; [|intros H; exists s; auto]. intros (t & Tt & E & H). apply (VIS s t); auto.
Qed.

(** The formula of line 276-281. *)
Definition unwritten : list nat := filter (fun i => negb (write_ck (acc kd i))) (seq 0 (nr kd)).
Lemma not_state : forall f, state_fmla ds f -> state_fmla ds (not_PFmla f).
Proof. intros f F a i a' i' q A I A' I' Q. unfold meaning in *. specialize (F a i a' i' q A I A' I' Q). unfold meaning in F. rewrite !eval_not, !negb_true_iff, <- !not_true_iff_false. tauto. Qed.
Lemma fixed_meaning : forall u, ok u -> forall a i, ok a -> ok i -> (meaning (fixed_pf T p) a i u <->
  forall w, ok w -> agree_off ds (map (rvbl p) unwritten) w u -> holds (p_assume p) w).
Proof.
  assert (G : forall l f, (forall i, In i l -> i < nr kd) -> state_fmla ds f ->
    let f' := fold_left (fun f i => if write_ck (acc kd i) then f else smooth_vbls ds f [rvbl p i] Pre) l f in
    state_fmla ds f' /\ forall u, ok u -> (holds f' u <-> exists w, ok w /\ agree_off ds (map (rvbl p) (filter (fun i => negb (write_ck (acc kd i))) l)) w u /\ holds f w)).
  { induction l as [|i l IH]; intros f B SF; cbn [fold_left filter].
    - split; auto. intros u U. split; [intros H; exists u; split; auto; split; [intros k _ _; auto|auto]|].
      intros (w & W & AG & H). replace u with w; auto. apply nth_ext with (d := 0) (d' := 0); [rewrite (ok_length ds w W), (ok_length ds u U); auto|].
      intros m M. apply AG; auto. rewrite <- (ok_length ds w W). auto.
    - pose proof (B i (or_introl eq_refl)) as Bi. destruct (write_ck (acc kd i)); cbn [negb].
      + apply IH; auto. intros; apply B; cbn; auto.
      + assert (WF : wf_ids ds [rvbl p i]) by (constructor; [apply (no_id _ HN p i Hp Bi)|constructor]).
        assert (SM : forall a i0 u, ok a -> ok i0 -> ok u -> (meaning (smooth_vbls ds f [rvbl p i] Pre) a i0 u <-> exists w, ok w /\ agree_off ds [rvbl p i] w u /\ holds f w)).
        { intros a i0 u A I U. rewrite C58_quantification by auto. split.
          - intros (a' & i' & w & A' & I' & W & M & -> & -> & AG). exists w. split; auto. split; auto. apply (SF w w a i0 w); auto.
          - intros (w & W & AG & H). exists a, i0, w. do 3 (split; [auto|]). split; [|auto]. apply (SF w w a i0 w); auto. }
        destruct (IH (smooth_vbls ds f [rvbl p i] Pre)) as (A1 & A2).
        { intros; apply B; cbn; auto. }
        { intros a i0 a' i0' u A I A' I' U. rewrite !SM by auto. tauto. }
        split; auto. intros u U. rewrite A2 by auto. split.
        * intros (w & W & AG & H). apply SM in H; auto. destruct H as (w' & W' & AG' & H). exists w'. split; auto. split; auto.
          intros k K NK. cbn [map In] in NK. rewrite AG', AG; auto. intros [X|[]]. tauto.
        * intros (w & W & AG & H). exists (over ds [rvbl p i] u w). assert (OV : ok (over ds [rvbl p i] u w)) by (apply over_ok; auto). split; auto. split.
          -- intros k K NK. rewrite over_nth by auto. cbn [existsb]. rewrite orb_false_r. destruct (Nat.eqb_spec k (rvbl p i)) as [E|E]; auto.
             apply AG; auto. cbn [map In]. intros [X|X]; [congruence|contradiction].
          -- apply SM; auto. exists w. split; auto. split; auto. intros k K NK. rewrite over_out; auto. }
  intros u U a i A I. unfold fixed_pf.
  destruct (G (seq 0 (nr kd)) (not_PFmla (p_assume p))) as (A1 & A2).
  { intros q Hq. apply in_seq in Hq. lia. }
  { apply not_state; auto. }
  cbv zeta in A1, A2. set (f' := fold_left _ _ _) in *. fold unwritten in A2.
  assert (E : meaning (not_PFmla f') a i u <-> ~ holds f' u).
  { unfold holds, meaning. rewrite eval_not, negb_true_iff, <- not_true_iff_false, (state_eval ds f' A1 a i u A I U). tauto. }
  rewrite E, A2 by auto. split.
  - intros H w W AG. destruct (eval (p_assume p) (join w w w)) eqn:EV; auto. exfalso. apply H. exists w. split; auto. split; auto.
    unfold holds, meaning. rewrite eval_not, EV. auto.
  - intros H (w & W & AG & X). specialize (H w W AG). unfold holds, meaning in *. rewrite eval_not, H in X. discriminate.
Qed.

Lemma matters_eq : matters T p = filter (fun ji => mat (snd ji)) (combine (seq 0 (length (puppets kd))) (puppets kd)).
Proof. reflexivity. Qed.
Lemma matters_w_eq : matters_w T p = filter (fun ji => write_ck (acc kd (snd ji)) && mat (snd ji)) (combine (seq 0 (length (puppets kd))) (puppets kd)).
Proof.
  unfold matters_w. rewrite matters_eq. induction (combine (seq 0 (length (puppets kd))) (puppets kd)) as [|x l IH]; cbn; auto.
  destruct (mat (snd x)); cbn; rewrite IH; destruct (write_ck _); auto.
Qed.
Lemma matters_in : forall q i, In (q, i) (matters T p) <-> nth_error (puppets kd) q = Some i /\ mat i = true.
Proof.
  intros q i. rewrite matters_eq, filter_In. cbn [snd]. rewrite in_indexed, Nat.sub_0_r. split; [tauto|]. intros (A & B). split; auto. split; [lia|auto].
Qed.
Notation ids := (map (fun ji : nat * nat => rvbl p (snd ji)) (matters T p)).
Notation wids := (map (fun ji : nat * nat => rvbl p (snd ji)) (matters_w T p)).
Lemma ids_wf : wf_ids ds ids.
Proof.
  unfold wf_ids. apply Forall_forall. intros v Hv. apply in_map_iff in Hv. destruct Hv as ((q, i) & <- & H). apply matters_in in H. destruct H as (H & _).
  apply (no_id _ HN p i Hp). apply (puppet_lt T p). eapply nth_error_In; eauto.
Qed.
Lemma wids_wf : wf_ids ds wids.
Proof.
  unfold wf_ids. apply Forall_forall. intros v Hv. apply in_map_iff in Hv. destruct Hv as ((q, i) & <- & H). unfold matters_w in H. apply filter_In in H.
  destruct H as (H & _). apply matters_in in H. destruct H as (H & _). apply (no_id _ HN p i Hp). apply (puppet_lt T p). eapply nth_error_In; eauto.
Qed.
Lemma values_ids : forall s, values ids s = map (fun ji => value s p (snd ji)) (matters T p).
Proof. intros s. unfold values. rewrite map_map. reflexivity. Qed.
Lemma cond_ids : forall s t, exec_cond (combine (map fst (matters T p)) (values ids t)) (cells T p s) = true <->
  forall i, In i (puppets kd) -> mat i = true -> value s p i = value t p i.
Proof.
  intros s t. rewrite values_ids. unfold exec_cond. rewrite forallb_forall.
  assert (NC : forall q i, nth_error (puppets kd) q = Some i -> nth q (cells T p s) 0 = value s p i).
  { intros q i H. apply nth_error_nth. unfold cells. change (shown (its_kind T p)) with (puppets kd). apply (map_nth_error (fun i => value s p i)). auto. }
  assert (CB : forall c, In c (combine (map fst (matters T p)) (map (fun ji => value t p (snd ji)) (matters T p))) <-> exists q i, In (q, i) (matters T p) /\ c = (q, value t p i)).
  { intros c. generalize (matters T p). induction l as [|(q, i) l IH]; cbn [map combine In]; [split; [tauto|intros (? & ? & [] & _)]|]. rewrite IH. cbn [fst snd]. split.
    - intros [<-|(q' & i' & H & ->)]; [exists q, i; auto|exists q', i'; auto].
    - intros (q' & i' & [E|H] & ->); [left; congruence|right; exists q', i'; auto]. }
  split.
  - intros H i Hi M. apply In_nth_error in Hi. destruct Hi as (q & Hq). specialize (H (q, value t p i)). cbn [fst snd] in H.
    rewrite (NC q i Hq) in H. apply Nat.eqb_eq. apply H. apply CB. exists q, i. split; auto. apply matters_in. auto.
  - intros H c Hc. apply CB in Hc. destruct Hc as (q & i & HI & ->). apply matters_in in HI. destruct HI as (H1 & H2). cbn [fst snd].
    rewrite (NC q i H1). apply Nat.eqb_eq. apply H; auto. eapply nth_error_In; eauto.
Qed.

Lemma assume_loop_spec : forall fuel img bad, state_fmla ds bad -> count T (fun t => eval bad (join t t t)) < fuel ->
  exists cs, assume_loop T fuel p img bad = Some cs /\
    (forall c, In c cs -> a_todo c = combine (map fst (matters_w T p)) img /\ exists s, ok s /\ holds bad s /\ a_cond c = combine (map fst (matters T p)) (values ids s)) /\
    (forall s, ok s -> holds bad s -> exists c, In c cs /\ a_cond c = combine (map fst (matters T p)) (values ids s)).
Proof.
  induction fuel as [|fuel IH]; intros img f SF C; [lia|]. cbn [assume_loop]. destruct (sat_ck ds f) eqn:E.
  - cbv zeta. destruct (pick_some T HN f ids ids_wf E) as (st & -> & b & i & t0 & B & I & T0 & M & V).
    assert (LS : length st = length ids) by (rewrite <- V; unfold values; rewrite map_length; auto).
    assert (H0 : holds f t0) by (unfold holds, meaning; rewrite <- (state_eval ds f SF b i t0 B I T0); auto).
    assert (OS : forall t, ok t -> (holds (of_state ds st ids) t <-> values ids t = st)).
    { intros t Tt. apply (C57_of_state_exact ds st ids ids_wf LS t t Tt Tt). }
    destruct (IH img (nimp_PFmla f (of_state ds st ids))) as (cs & EL & H1 & H2).
    + apply nimp_is_state; auto. apply of_state_is_state. apply ids_wf.
    + enough (count T (fun t => eval (nimp_PFmla f (of_state ds st ids)) (join t t t)) < count T (fun t => eval f (join t t t))) by lia.
      apply count_mono.
      * intros t Tt H. apply (nimp_state f _ t) in H. apply H.
      * exists t0. split; auto. split; auto. apply not_true_iff_false. intros H. apply (nimp_state f _ t0) in H. destruct H as (_ & H). apply H, OS; auto.
    + rewrite EL. eexists. split; [reflexivity|]. split.
      * intros c [<-|H]; cbn [a_todo a_cond].
        -- split; auto. exists t0. rewrite V. auto.
        -- destruct (H1 c H) as (A1 & s & S & A2 & A3). split; auto. apply nimp_state in A2. exists s. tauto.
      * intros s S H. destruct (list_eq_dec Nat.eq_dec (values ids s) st) as [D|D].
        -- eexists. split; [left; reflexivity|]. rewrite D. reflexivity.
        -- destruct (H2 s S) as (c & A1 & A2); [apply nimp_state; split; auto; rewrite OS; auto|]. exists c. split; auto. cbn. auto.
  - exists []. split; auto. split; [intros c []|]. intros s S H.
    enough (sat_ck ds f = true) by congruence. apply (sat_state ds INH); auto. eauto.
Qed.

Lemma assume_exec : forall fuel cs, length (assignments ds) < fuel -> some_memb T (p_kind p) = Some (j, p) ->
  gen_assume_kind T fuel (p_kind p) = Some cs -> forall x, fits kd x ->
  let y := exec_assume_body cs x in
  fits kd y /\ assumed T p y /\ (assumed T p x -> y = x) /\ (forall m, m < length x -> write_ck (acc kd (nth m (puppets kd) 0)) = false -> nth m y 0 = nth m x 0).
Proof.
  intros fuel cs F SM G x FX. cbv zeta. destruct (state_with x FX) as (s & S & <-). unfold gen_assume_kind in G. rewrite SM in G.
  destruct (tautology_ck ds (p_assume p)) eqn:TA.
  - injection G as <-. unfold exec_assume_body. cbn [find]. split; auto. split; [|auto]. apply assumed_iff; auto. pose proof (proj1 (tautology_iff ds INH _) TA) as TE. unfold holds, meaning. apply TE; auto.
  - destruct (sat_ck ds (fixed_pf T p)) eqn:SF; cbn [negb] in G; [|discriminate].
    destruct (pick_some T HN (fixed_pf T p) wids wids_wf SF) as (img & EI & a & i & u & A & I & U & M & V). rewrite EI in G.
    rewrite (fixed_meaning u U a i A I) in M.
    assert (SB : state_fmla ds (not_PFmla (p_assume p))) by (apply not_state; auto).
    destruct (assume_loop_spec fuel img (not_PFmla (p_assume p)) SB) as (cs' & EC & H1 & H2).
    { pose proof (count_le T (fun t => eval (not_PFmla (p_assume p)) (join t t t))). lia. }
    rewrite G in EC. injection EC as <-. unfold exec_assume_body.
    assert (NOT : forall t, holds (not_PFmla (p_assume p)) t <-> ~ holds (p_assume p) t).
    { intros t. unfold holds, meaning. rewrite eval_not, negb_true_iff, not_true_iff_false. tauto. }
    destruct (find (fun c => exec_cond (a_cond c) (cells T p s)) cs) as [c|] eqn:FD.
    + apply List.find_some in FD. destruct FD as (I1 & I2). destruct (H1 c I1) as (TD & s1 & S1 & B1 & CD). rewrite CD in I2.
      rewrite cond_ids in I2. apply NOT in B1. assert (NB : ~ holds (p_assume p) s) by (rewrite (mat_agree s s1); auto).
      rewrite TD.
      (* the state that is assigned *)
      set (s' := over ds wids u s). assert (OS' : ok s') by (apply over_ok; auto).
      assert (WV : forall i0, In i0 (puppets kd) -> value s' p i0 = if write_ck (acc kd i0) && mat i0 then value u p i0 else value s p i0).
      { intros i0 Hi0. assert (L0 : i0 < nr kd) by (apply (puppet_lt T p); auto). unfold value, s'. change (vbl_at p i0) with (rvbl p i0).
        rewrite over_nth by (apply (no_id _ HN p i0 Hp L0)). destruct (existsb (Nat.eqb (rvbl p i0)) wids) eqn:EX.
        - apply mem_iff in EX. apply in_map_iff in EX. destruct EX as ((q, i1) & E1 & H). cbn [snd] in E1. rewrite matters_w_eq, filter_In in H. cbn [snd] in H.
          destruct H as (H & W). apply in_combine_r in H. replace i0 with i1 in * by (apply rvbl_inj; auto; apply (puppet_lt T p); auto). rewrite W. auto.
        - destruct (write_ck (acc kd i0) && mat i0) eqn:W; auto. exfalso. enough (existsb (Nat.eqb (rvbl p i0)) wids = true) by congruence.
          apply mem_iff. apply In_nth_error in Hi0. destruct Hi0 as (q & Hq). apply in_map_iff. exists (q, i0). split; auto. rewrite matters_w_eq, filter_In. cbn [snd].
          split; auto. apply in_indexed. rewrite Nat.sub_0_r. split; [lia|auto]. }
      assert (EY : exec_assign (combine (map fst (matters_w T p)) img) (cells T p s) = cells T p s').
      { rewrite <- V. unfold values. rewrite map_map, matters_w_eq. unfold cells at 1. change (shown (its_kind T p)) with (puppets kd).
        pose proof (exec_assign_spec (fun i => write_ck (acc kd i) && mat i) (fun i => value u p i) (fun i => value s p i) (puppets kd) []) as X. cbv zeta in X. cbn [length app] in X.
        transitivity (map (fun i0 => if write_ck (acc kd i0) && mat i0 then value u p i0 else value s p i0) (puppets kd)); [exact X|].
        unfold cells. change (shown (its_kind T p)) with (puppets kd). apply map_ext_in. intros i0 Hi0. symmetry. apply WV; auto. }
      rewrite EY. split; [apply cells_fit; auto|]. split; [|split].
      * apply assumed_iff; auto.
        set (w := over ds (map (rvbl p) unwritten) s u). assert (OW : ok w) by (apply over_ok; auto).
        assert (HW : holds (p_assume p) w) by (apply M; auto; apply over_agree).
        apply (mat_agree s' w); auto. intros i0 Hi0 M0. assert (L0 : i0 < nr kd) by (apply (puppet_lt T p); auto). rewrite WV by auto. rewrite M0, andb_true_r. unfold value, w.
        change (vbl_at p i0) with (rvbl p i0). destruct (write_ck (acc kd i0)) eqn:W0; symmetry.
        -- apply over_out; [apply (no_id _ HN p i0 Hp L0)|]. intros X. apply in_map_iff in X. destruct X as (i1 & E1 & X). unfold unwritten in X. apply filter_In in X.
           destruct X as (X1 & X2). apply in_seq in X1. replace i1 with i0 in X2 by (apply rvbl_inj; auto; lia). rewrite W0 in X2. discriminate.
        -- apply over_in; [apply (no_id _ HN p i0 Hp L0)|]. apply in_map_iff. exists i0. split; auto. unfold unwritten. apply filter_In. split; [apply in_seq; lia|]. rewrite W0. auto.
      * intros X. apply assumed_iff in X; auto. contradiction.
      * intros m Hm W0. unfold cells in Hm. rewrite map_length in Hm. change (shown (its_kind T p)) with (puppets kd) in Hm.
        assert (NC : forall s, nth m (cells T p s) 0 = value s p (nth m (puppets kd) 0)).
        { intros s2. apply nth_error_nth. unfold cells. change (shown (its_kind T p)) with (puppets kd). apply (map_nth_error (fun i => value s2 p i)). apply nth_error_nth'. auto. }
        rewrite !NC, WV by (apply nth_In; auto). rewrite W0. auto.
    + assert (HH : holds (p_assume p) s).
      { destruct (eval (p_assume p) (join s s s)) eqn:EV; [exact EV|]. exfalso. destruct (H2 s S) as (c & A1 & A2).
        { apply NOT. unfold holds, meaning. congruence. }
        pose proof (find_none _ _ FD c A1) as X. cbn beta in X. rewrite A2 in X. rewrite (proj2 (cond_ids s s)) in X; [discriminate|auto]. }
      split; auto. split; auto. apply assumed_iff; auto.
Qed.
Lemma assume_fails : forall fuel, length (assignments ds) < fuel -> some_memb T (p_kind p) = Some (j, p) ->
  (gen_assume_kind T fuel (p_kind p) = None <->
   forall u, ok u -> exists w, ok w /\ agree_off ds (map (rvbl p) unwritten) w u /\ ~ holds (p_assume p) w).
Proof.
  intros fuel F SM. unfold gen_assume_kind. rewrite SM.
  assert (CASE : forall u, ok u -> (exists w, ok w /\ agree_off ds (map (rvbl p) unwritten) w u /\ ~ holds (p_assume p) w) \/
     (forall w, ok w -> agree_off ds (map (rvbl p) unwritten) w u -> holds (p_assume p) w)).
  { intros u U. pose proof (fixed_meaning u U u u U U) as FM. destruct (eval (fixed_pf T p) (join u u u)) eqn:EV.
    - right. apply FM. exact EV.
    - left. set (bad := fun w => forallb (fun k => existsb (Nat.eqb k) (map (rvbl p) unwritten) || (nth k w 0 =? nth k u 0)) (seq 0 (length ds)) && negb (eval (p_assume p) (join w w w))).
      destruct (find bad (assignments ds)) as [w|] eqn:FD.
      + apply List.find_some in FD. destruct FD as (A1 & A2). apply in_assignments in A1. unfold bad in A2. apply andb_true_iff in A2. destruct A2 as (A2 & A3).
        exists w. split; auto. split.
        * intros k K NK. rewrite forallb_forall in A2. specialize (A2 k). rewrite orb_true_iff in A2. destruct A2 as [X|X]; [apply in_seq; lia| |apply Nat.eqb_eq; auto].
          apply mem_iff in X. contradiction.
        * unfold holds, meaning. apply negb_true_iff in A3. congruence.
      + exfalso. enough (meaning (fixed_pf T p) u u u) by (unfold meaning in *; congruence). apply FM. intros w W AG.
        pose proof (find_none _ _ FD w) as X. rewrite in_assignments in X. specialize (X W). unfold bad in X. apply andb_false_iff in X. destruct X as [X|X].
        * exfalso. enough (forallb (fun k => existsb (Nat.eqb k) (map (rvbl p) unwritten) || (nth k w 0 =? nth k u 0)) (seq 0 (length ds)) = true) by congruence.
          apply forallb_forall. intros k K. apply in_seq in K. apply orb_true_iff. destruct (existsb (Nat.eqb k) (map (rvbl p) unwritten)) eqn:EX; auto. right. apply Nat.eqb_eq. apply AG; [lia|].
          intros Y. apply mem_iff in Y. congruence.
        * apply negb_false_iff in X. exact X. }
  destruct (tautology_ck ds (p_assume p)) eqn:TA.
  - split; [discriminate|]. intros H. exfalso. destruct (H (map (fun _ => 0) ds) (zero_ok ds INH)) as (w & W & _ & X). apply X. pose proof (proj1 (tautology_iff ds INH _) TA) as TE. unfold holds, meaning. apply TE; auto.
  - destruct (sat_ck ds (fixed_pf T p)) eqn:SF; cbn [negb].
    + destruct (pick_some T HN (fixed_pf T p) wids wids_wf SF) as (img & EI & a & i & u & A & I & U & M & V). rewrite EI.
      rewrite (fixed_meaning u U a i A I) in M.
      destruct (assume_loop_spec fuel img (not_PFmla (p_assume p))) as (cs' & EC & _ & _).
      { apply not_state; auto. }
      { pose proof (count_le T (fun t => eval (not_PFmla (p_assume p)) (join t t t))). lia. }
      rewrite EC. split; [discriminate|]. intros H. exfalso. destruct (H u U) as (w & W & AG & X). apply X, M; auto.
    + split; auto. intros _ u U. destruct (CASE u U) as [X|X]; auto. exfalso. enough (sat_ck ds (fixed_pf T p) = true) by congruence.
      apply (sat_iff ds INH). exists u, u, u. do 3 (split; [auto|]). apply (fixed_meaning u U u u U U). exact X.
Qed.
End Process.
End Act.
