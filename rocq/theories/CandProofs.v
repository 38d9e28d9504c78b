(** Candidate actions: proofs. *)
From Coq Require Import List Arith Bool Lia.
From Verif Require Import FinLib Radix FmlaModel FmlaSpec FmlaProofs FmlaProofs2 FmlaProofs3 FmlaProofs4 FmlaProps
  ActModel ActSpec ActProofs ActProofs2 ActProofs4 ActProps NetModel NetSpec NetProofs NetProofs2 NetProofs3 NetProofs4
  CandModel CandSpec.
Import ListNotations.

Section Sets.
Variable ds : list nat.
Notation ok := (FmlaSpec.ok ds).
Hypothesis INH : inhabited ds.

Lemma sub_state : forall f g, state_fmla ds f -> state_fmla ds g ->
  (subseteq_ck ds f g = true <-> forall s, ok s -> holds f s -> holds g s).
Proof.
  intros f g F G. rewrite (subseteq_iff ds INH). split.
  - intros H s S X. apply H; auto.
  - intros H a i p A I P X. rewrite (state_eval ds g G a i p A I P). apply H; auto. unfold holds, meaning.
    rewrite <- (state_eval ds f F a i p A I P). auto.
Qed.
Lemma sub_trans : forall f g, trans_fmla ds f -> trans_fmla ds g ->
  (subseteq_ck ds f g = true <-> forall s t, ok s -> ok t -> steps f s t -> steps g s t).
Proof.
  intros f g F G. rewrite (subseteq_iff ds INH). split.
  - intros H s t S T X. apply H; auto.
  - intros H a i p A I P X. rewrite (trans_eval ds g G a i p A I P). apply H; auto. unfold steps, meaning.
    rewrite <- (trans_eval ds f F a i p A I P). auto.
Qed.
Lemma overlap_state : forall f g, state_fmla ds f -> state_fmla ds g ->
  (overlap_ck ds f g = true <-> exists s, ok s /\ holds f s /\ holds g s).
Proof.
  intros f g F G. rewrite (overlap_iff ds INH). split.
  - intros (a & i & p & A & I & P & X & Y). exists p. split; auto. unfold holds, meaning.
    rewrite <- (state_eval ds g G a i p A I P), <- (state_eval ds f F a i p A I P). auto.
  - intros (s & S & X & Y). exists s, s, s. auto.
Qed.
Lemma sat_state : forall f, state_fmla ds f -> (sat_ck ds f = true <-> exists s, ok s /\ holds f s).
Proof.
  intros f F. rewrite (sat_iff ds INH). split.
  - intros (a & i & p & A & I & P & X). exists p. split; auto. unfold holds, meaning. rewrite <- (state_eval ds f F a i p A I P). auto.
  - intros (s & S & X). exists s, s, s. auto.
Qed.
Lemma sat_trans : forall f, trans_fmla ds f -> (sat_ck ds f = true <-> exists s t, ok s /\ ok t /\ steps f s t).
Proof.
  intros f F. rewrite (sat_iff ds INH). split.
  - intros (a & i & p & A & I & P & X). exists p, i. split; auto. split; auto. unfold steps, meaning.
    rewrite <- (trans_eval ds f F a i p A I P). auto.
  - intros (s & t & S & T & X). exists s, t, s. auto.
Qed.
Lemma and_state : forall f g, state_fmla ds f -> state_fmla ds g -> state_fmla ds (and_PFmla f g).
Proof.
  intros f g F G a i a' i' p A I A' I' P. unfold meaning. rewrite !eval_and, !andb_true_iff.
  specialize (F a i a' i' p A I A' I' P). specialize (G a i a' i' p A I A' I' P). unfold meaning in *. tauto.
Qed.
Lemma and_trans : forall f g, trans_fmla ds f -> trans_fmla ds g -> trans_fmla ds (and_PFmla f g).
Proof.
  intros f g F G a a' i p A A' I P. unfold meaning. rewrite !eval_and, !andb_true_iff.
  specialize (F a a' i p A A' I P). specialize (G a a' i p A A' I P). unfold meaning in *. tauto.
Qed.
Lemma or_trans : forall f g, trans_fmla ds f -> trans_fmla ds g -> trans_fmla ds (or_PFmla f g).
Proof.
  intros f g F G a a' i p A A' I P. unfold meaning. rewrite !eval_or, !orb_true_iff.
  specialize (F a a' i p A A' I P). specialize (G a a' i p A A' I P). unfold meaning in *. tauto.
Qed.
Lemma holds_and : forall f g s, holds (and_PFmla f g) s <-> holds f s /\ holds g s.
Proof. intros. unfold holds, meaning. rewrite eval_and, andb_true_iff. tauto. Qed.
Lemma steps_and_state : forall f g s t, ok s -> ok t -> state_fmla ds g -> (steps (and_PFmla f g) s t <-> steps f s t /\ holds g s).
Proof.
  intros f g s t S T G. unfold steps, meaning. rewrite eval_and, andb_true_iff. rewrite (state_eval ds g G s t s S T S).
  unfold holds, meaning. tauto.
Qed.
Lemma steps_or : forall f g s t, steps (or_PFmla f g) s t <-> steps f s t \/ steps g s t.
Proof. intros. unfold steps, meaning. rewrite eval_or, orb_true_iff. tauto. Qed.

(** Quantifying everything away leaves satisfiability. *)
Lemma smooth_everything : forall f l a i p, l = all_ids ds -> ok a -> ok i -> ok p ->
  (eval (smooth_vbls ds f l AllCopies) (join a i p) = true <-> sat_ck ds f = true).
Proof.
  intros f l a i p -> A I P. assert (W : wf_ids ds (all_ids ds)).
  { apply Forall_forall. intros x Hx. unfold all_ids in Hx. apply in_seq in Hx. lia. }
  rewrite (ev_smooth_vbls ds) by auto. rewrite (sat_iff ds INH).
  split; intros (a' & i' & p' & H); exists a', i', p'; [tauto|].
  destruct H as (A' & I' & P' & H). split; auto. split; auto. split; auto.
  assert (AG : forall x y, agree_off ds (all_ids ds) x y).
  { intros x y k K NI. exfalso. apply NI. unfold all_ids. apply in_seq. lia. }
  auto.
Qed.
End Sets.

Section Cand.
Variable S : system.
Notation N := (s_net S).
Notation ds := (vdoms (s_net S)).
Notation ok := (ok (vdoms (s_net S))).
Hypothesis HS : system_ok S.
Let HN : net_ok N := so_net S HS.
Let INH : inhabited ds := inh N HN.

(** ** The process that stands for a kind *)
Lemma distinct_iff : forall l, distinct l = true <-> NoDup l.
Proof.
  induction l as [|x l IH]; cbn; [split; auto; constructor|]. rewrite andb_true_iff, negb_true_iff, IH. split.
  - intros (H1 & H2). constructor; auto. intros X. enough (existsb (Nat.eqb x) l = true) by congruence.
    apply existsb_exists. exists x. split; auto. apply Nat.eqb_refl.
  - intros H. inversion H; subst. split; auto. apply not_true_iff_false. intros X. apply existsb_exists in X.
    destruct X as (y & Hy & E). apply Nat.eqb_eq in E. subst y. contradiction.
Qed.

Lemma map_nth_seq : forall l, map (fun w => nth w l 0) (seq 0 (length l)) = l.
Proof.
  intros l. apply nth_ext with (d := 0) (d' := 0); [rewrite map_length, seq_length; auto|].
  intros i Hi. rewrite map_length, seq_length in Hi.
  rewrite (nth_indep _ 0 (nth 0 l 0)) by (rewrite map_length, seq_length; auto).
  rewrite (map_nth (fun w => nth w l 0)), seq_nth; auto.
Qed.

Lemma wvbls_distinct : forall p, In p (pcs N) -> NoDup (p_vbls p) -> NoDup (map (wvbl N p) (seq 0 (nw (kind_of N p)))).
Proof.
  intros p Hp ND. pose proof (no_vbls _ HN p Hp) as L.
  assert (E : map (wvbl N p) (seq 0 (nw (kind_of N p))) = map (rvbl p) (wmap (kind_of N p))).
  { unfold nw. rewrite <- (map_map (fun w => nth w (wmap (kind_of N p)) 0) (rvbl p)). f_equal.
    apply map_nth_seq. }
  rewrite E. assert (NW : NoDup (wmap (kind_of N p))) by (unfold wmap; apply NoDup_filter, seq_NoDup).
  assert (B : forall i, In i (wmap (kind_of N p)) -> i < length (p_vbls p)).
  { intros i Hi. unfold wmap in Hi. apply filter_In in Hi. destruct Hi as (Hi & _). apply in_seq in Hi. rewrite L. unfold accesses. unfold nr, kind_of in Hi. unfold its_kind. lia. }
  clear E. induction NW as [|i l NI NW IH]; cbn; constructor.
  - intros X. apply in_map_iff in X. destruct X as (i' & E & Hi'). unfold rvbl in E.
    assert (i' = i); [|subst; contradiction]. rewrite NoDup_nth with (d := 0) in ND. apply ND; auto; apply B; cbn; auto.
  - apply IH. intros; apply B; cbn; auto.
Qed.

Lemma in_combine_seq : forall A (l : list A) i x s, In (i, x) (combine (seq s (length l)) l) <-> s <= i /\ nth_error l (i - s) = Some x.
Proof.
  induction l as [|y l IH]; intros i x s; cbn [length seq combine In].
  - split; [intros []|]. intros (_ & H). destruct (i - s); discriminate.
  - rewrite IH. split.
    + intros [E|(H1 & H2)]; [injection E as <- <-; split; [lia|]; rewrite Nat.sub_diag; reflexivity|].
      split; [lia|]. replace (i - s) with (Datatypes.S (i - Datatypes.S s)) by lia. exact H2.
    + intros (H1 & H2). destruct (Nat.eq_dec i s) as [->|NE].
      * rewrite Nat.sub_diag in H2. injection H2 as ->. auto.
      * right. split; [lia|]. replace (i - s) with (Datatypes.S (i - Datatypes.S s)) in H2 by lia. exact H2.
Qed.

Lemma membs_in : forall k i p, In (i, p) (membs N k) <-> nth_error (pcs N) i = Some p /\ p_kind p = k.
Proof.
  intros k i p. unfold membs. rewrite filter_In, in_combine_seq. cbn [snd]. rewrite Nat.eqb_eq, Nat.sub_0_r.
  intuition lia.
Qed.

Definition before (i : nat) (l : list (nat * process)) : Prop := Forall (fun jq => i < fst jq) l.
Fixpoint increasing (l : list (nat * process)) : Prop :=
  match l with [] => True | ip :: l' => before (fst ip) l' /\ increasing l' end.
Lemma increasing_filter : forall f l, increasing l -> increasing (filter f l).
Proof.
  induction l as [|x l IH]; cbn; auto. intros (B & I). destruct (f x); cbn; auto. split; auto.
  unfold before in *. rewrite Forall_forall in *. intros y Hy. apply filter_In in Hy. apply B. tauto.
Qed.
Lemma membs_increasing : forall k, increasing (membs N k).
Proof.
  intros k. apply increasing_filter. generalize 0. induction (pcs N) as [|p ps IH]; intros s; cbn [length seq combine increasing]; auto.
  split; auto. apply Forall_forall. intros (j & q) Hj. apply in_combine_seq in Hj. cbn. lia.
Qed.
Lemma find_first : forall f l ip, increasing l -> find f l = Some ip ->
  In ip l /\ f ip = true /\ forall jq, In jq l -> fst jq < fst ip -> f jq = false.
Proof.
  induction l as [|x l IH]; intros ip I F; [discriminate|]. cbn in F. destruct I as (B & I). destruct (f x) eqn:E.
  - injection F as <-. split; [cbn; auto|]. split; auto. intros jq [<-|Hj] L; [lia|].
    exfalso. unfold before in B. rewrite Forall_forall in B. specialize (B _ Hj). lia.
  - destruct (IH ip I F) as (H1 & H2 & H3). split; [cbn; auto|]. split; auto. intros jq [<-|Hj] L; auto.
Qed.

Lemma some_memb_spec : forall k,
  match some_memb N k with
  | Some (j, p) => stands_for S k j p
  | None => forall p, In p (pcs N) -> p_kind p <> k
  end.
Proof.
  intros k. unfold some_memb, representative.
  set (f := fun ip : nat * process => _).
  assert (FI : forall j q, nth_error (pcs N) j = Some q -> (f (j, q) = true <-> NoDup (p_vbls q))).
  { intros j q Hj. unfold f. cbn [snd]. rewrite andb_true_iff, !distinct_iff. split; [tauto|]. intros H. split; auto.
    apply wvbls_distinct; auto. eapply nth_error_In. eauto. }
  destruct (find f (membs N k)) as [(j, p)|] eqn:F.
  - destruct (find_first f _ _ (membs_increasing k) F) as (H1 & H2 & H3). apply membs_in in H1. destruct H1 as (H0 & H1).
    split; auto. split; auto. left. split; [apply (FI j p H0); auto|]. intros i q L Hi K ND.
    apply (FI i q Hi) in ND. rewrite H3 in ND; [discriminate| |cbn; lia]. apply membs_in. auto.
  - assert (NO : forall i q, nth_error (pcs N) i = Some q -> p_kind q = k -> ~ NoDup (p_vbls q)).
    { intros i q Hi K ND. apply (FI i q Hi) in ND. rewrite (find_none f _ F (i, q)) in ND; [discriminate|]. apply membs_in. auto. }
    destruct (membs N k) as [|(j, p) l] eqn:M; cbn [hd_error].
    + intros p Hp K. apply In_nth_error in Hp. destruct Hp as (i & Hi).
      assert (X : In (i, p) (membs N k)) by (apply membs_in; auto). rewrite M in X. destruct X.
    + assert (X : In (j, p) (membs N k)) by (rewrite M; cbn; auto). apply membs_in in X. destruct X as (H0 & H1).
      split; auto. split; auto. right. split.
      * intros q Hq K. apply In_nth_error in Hq. destruct Hq as (i & Hi). eauto.
      * intros i q L Hi K. assert (X : In (i, q) (membs N k)) by (apply membs_in; auto).
        pose proof (membs_increasing k) as I. rewrite M in X, I. cbn in I. destruct I as (B & _). destruct X as [X|X].
        -- injection X as -> _. lia.
        -- unfold before in B. rewrite Forall_forall in B. specialize (B _ X). cbn in B. lia.
Qed.
End Cand.
