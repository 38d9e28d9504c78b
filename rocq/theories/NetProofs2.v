(** The steps of a process are the moves of the specification. *)
From Coq Require Import List Arith Bool Lia.
From Verif Require Import FinLib Radix FmlaModel FmlaSpec FmlaProofs FmlaProofs2 FmlaProofs3 FmlaProofs4 FmlaProps
  ActModel ActSpec ActProofs ActProofs2 ActProofs4 NetModel NetSpec NetProofs.
Import ListNotations.

Section Net.
Variable N : network.
Notation ds := (vdoms N).
Notation ok := (ok (vdoms N)).
Hypothesis HN : net_ok N.

Section Pc.
Variable p : process.
Hypothesis Hp : In p (pcs N).
Notation k := (kind_of N p).

Lemma assume_state : state_fmla ds (p_assume p).
Proof. apply (no_assume _ HN); auto. Qed.
Lemma forbid_local : trans_fmla ds (p_forbid p) /\ writes_only ds (written N p) (p_forbid p).
Proof.
  destruct (no_local _ HN p Hp (p_forbid p)) as (A & B); [cbn; auto|]. split; auto.
  intros a i i' q Ha Hi Hi' Hq E. apply B; auto. intros x Hx. apply E. apply written_iff; auto.
Qed.
Lemma permit_local : trans_fmla ds (p_permit p) /\ writes_only ds (written N p) (p_permit p).
Proof.
  destruct (no_local _ HN p Hp (p_permit p)) as (A & B); [cbn; auto|]. split; auto.
  intros a i i' q Ha Hi Hi' Hq E. apply B; auto. intros x Hx. apply E. apply written_iff; auto.
Qed.

Lemma ev_okay : forall a i q, ok a -> ok i -> ok q ->
  (eval (okay_xn N p) (join a i q) = true <->
   holds (p_assume p) q /\ holds (p_assume p) (over ds (written N p) i q) /\
   ~ meaning (p_forbid p) a i q /\
   ((exists a i q, ok a /\ ok i /\ ok q /\ meaning (p_permit p) a i q) -> meaning (p_permit p) a i q)).
Proof.
  intros a i q A I Q. unfold okay_xn. cbv zeta.
  assert (O : ok (over ds (written N p) i q)) by (apply over_ok; auto).
  assert (E : eval (and_PFmla (and_PFmla (p_assume p) (subst1_vbls (p_assume p) (written N p) true)) (not_PFmla (p_forbid p))) (join a i q) = true
     <-> holds (p_assume p) q /\ holds (p_assume p) (over ds (written N p) i q) /\ ~ meaning (p_forbid p) a i q).
  { rewrite !eval_and, eval_not, !andb_true_iff.
    rewrite (state_eval ds (p_assume p) assume_state a i q A I Q).
    rewrite (subst1_eval ds (p_assume p) (written N p) true a i q (over ds (written N p) i q)); auto using wf_written.
    - rewrite (state_eval ds (p_assume p) assume_state a i _ A I O). unfold holds, meaning.
      rewrite negb_true_iff, not_true_iff_false. tauto.
    - cbv zeta. split.
      + intros x Hx. pose proof (wf_written N HN p Hp) as W. unfold wf_ids in W. rewrite Forall_forall in W. rewrite over_in; auto.
      + apply over_agree. }
  pose proof (sat_iff ds (inh N HN) (p_permit p)) as S. unfold meaning in *. destruct (sat_ck ds (p_permit p)).
  - rewrite eval_and, andb_true_iff, E. destruct S as (S & _). specialize (S eq_refl). tauto.
  - rewrite E. split; [|tauto]. intros H. split; [tauto|]. split; [tauto|]. split; [tauto|].
    intros X. apply S in X. discriminate.
Qed.

Section Vals.
Variable v : list nat.
Hypothesis Hv : action_values k v.

Lemma own_written : forall j, j < nr k -> wck k j = true -> In (rvbl p j) (written N p).
Proof.
  intros j Hj W. apply written_iff; auto. left. exists j. split; [exact Hj|]. split; [|reflexivity]. apply writable_ck. exact W.
Qed.

Lemma pc_proc_ok : proc_ok ds (proc_of N p (xn_of_pc N p v)).
Proof.
  destruct forbid_local as (F1 & F2). destruct permit_local as (P1 & P2).
  split; [apply wf_written; auto|]. cbn [xn proc_of wvbls mask]. split; [|split].
  - intros a a' i q A A' I Q. unfold meaning. rewrite !ev_xn_of_pc by auto. rewrite !ev_okay by auto.
    rewrite (F1 a a' i q), (P1 a a' i q) by auto. tauto.
  - intros a i i' q A I I' Q E. unfold meaning. rewrite !ev_xn_of_pc by auto. rewrite !ev_okay by auto.
    rewrite (F2 a i i' q), (P2 a i i' q) by auto.
    assert (EO : over ds (written N p) i q = over ds (written N p) i' q).
    { apply nth_ext with (d := 0) (d' := 0); [rewrite !over_length; auto|]. intros x Hx. rewrite over_length in Hx.
      destruct (in_dec Nat.eq_dec x (written N p)) as [IN|NI]; [rewrite !over_in|rewrite !over_out]; auto. }
    rewrite EO. 
    assert (EV : forall j, j < nr k -> wck k j = true -> nth (rvbl p j) i 0 = nth (rvbl p j) i' 0).
    { intros j Hj W. apply E. apply own_written; auto. }
    split; intros (H1 & H2 & H3 & H4); (split; [auto|]); (split; [|auto]); intros j Hj W T.
    + rewrite <- EV by auto. auto.
    + rewrite EV by auto. auto.
  - intros a i q A I Q. apply mask_meaning; auto. apply wf_written; auto.
Qed.

Lemma pc_step_move : forall s t, ok s -> ok t ->
  (proc_step ds (proc_of N p (xn_of_pc N p v)) s t <-> local_move N p v s t).
Proof.
  intros s t S T. unfold proc_step. cbn [xn proc_of wvbls]. unfold steps, meaning. rewrite ev_xn_of_pc by auto. split.
  - intros ((H1 & H2 & H3 & H4) & H5).
    assert (EO : over ds (written N p) t s = t) by (apply agree_over; auto using agree_sym).
    constructor.
    + exact H1.
    + intros i Hi W R. apply H2; auto. apply writable_ck. exact W.
    + intros x Hx O F. symmetry. apply H5; auto. rewrite written_iff by auto. tauto.
    + intros R H. destruct (H4 R) as (j & Hj & W & V & L & D).
      * intros j Hj W V. apply H; auto. apply writable_ck. exact W.
      * exists j. split; [exact Hj|]. split; [apply writable_ck; exact W|]. auto.
    + intros R. specialize (H3 R). apply ev_okay in H3; auto. rewrite EO in H3. exact H3.
  - intros [G A F E R].
    assert (AG : agree_off ds (written N p) s t).
    { intros x Hx X. symmetry. rewrite written_iff in X by auto. apply F; tauto. }
    assert (EO : over ds (written N p) t s = t) by (apply agree_over; auto using agree_sym).
    split; auto. split; [exact G|]. split; [|split].
    + intros j Hj W Tj. apply A; auto. apply writable_ck. exact W.
    + intros X. apply ev_okay; auto. rewrite EO. apply R; auto.
    + intros X H. destruct E as (j & Hj & W & V & L & D); auto.
      * intros j Hj W V. apply H; auto. apply writable_ck. exact W.
      * exists j. split; [exact Hj|]. split; [apply writable_ck; exact W|]. auto.
Qed.
End Vals.
End Pc.
End Net.
