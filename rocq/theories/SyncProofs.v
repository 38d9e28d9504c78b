From Coq Require Import List Arith Bool Lia.
From Verif Require Import FinLib Radix FmlaModel FmlaSpec FmlaProofs FmlaProofs2 FmlaProofs3 FmlaProofs4 FmlaProps
  ActModel ActSpec ActProofs ActProofs2 ActProofs4 ActProps NetModel NetSpec NetProofs NetProofs2 NetProofs3 SyncSpec.
Import ListNotations.

Section Sync.
Variable N : network.
Notation ds := (vdoms N).
Notation ok := (ok (vdoms N)).
Hypothesis HN : net_ok N.
Variable acts : list nat.
Hypothesis ACTS : forall a, In a acts -> a < actions_in (kinds N) /\ representative_action_index (kinds N) a = Some a.

Lemma sync_denotes : denotes N (sync_procs N acts) (can_move N acts).
Proof.
  unfold sync_procs. apply Forall2_map_r. intros p Hp.
  assert (R : forall r, In r (flat_map (represented_actions (kinds N)) acts) -> r < actions_in (kinds N)).
  { intros r H. apply in_flat_map in H. destruct H as (a & A & H). destruct (ACTS a A) as (A1 & A2).
    apply (C40_represented (kinds N) a a r (links_ok N HN) A1 A2) in H. destruct H; auto. }
  assert (F : forall l x Q, (forall r, In r l -> r < actions_in (kinds N)) -> means N p x Q ->
    means N p (fold_left (fun x r => let a := act_of (kinds N) r in if p_kind p =? act_pc a then or_PFmla x (xn_of_pc N p (vals a)) else x) l x)
      (fun s t => Q s t \/ exists r, In r l /\ move N r p s t)).
  { induction l as [|r l IH]; intros x Q L M; cbn [fold_left].
    - apply (means_ext _ _ _ _ _ M). intros s t S T. split; auto. intros [X|(r & [] & _)]; auto.
    - cbv zeta. destruct (C39_decode (kinds N) r (L r (or_introl eq_refl))) as (_ & V & _).
      destruct (Nat.eqb_spec (p_kind p) (act_pc (act_of (kinds N) r))) as [E|NE].
      + rewrite <- E in V. fold (kind_of N p) in V.
        refine (means_ext _ _ _ _ _ (IH _ _ (fun q H => L q (or_intror H)) (means_or _ _ _ _ _ (fun s t => local_move N p (vals (act_of (kinds N) r)) s t) M _)) _).
        * split; [apply pc_proc_ok; auto|]. intros s t S T. apply pc_step_move; auto.
        * intros s t S T. unfold move. split.
          -- intros [[X|X]|(q & Hq & X)]; [auto|right; exists r; cbn; auto|right; exists q; cbn; auto].
          -- intros [X|(q & [<-|Hq] & X)]; [auto|destruct X; auto|right; exists q; auto].
      + refine (means_ext _ _ _ _ _ (IH _ _ (fun q H => L q (or_intror H)) M) _).
        intros s t S T. unfold move. split.
        * intros [X|(q & Hq & X)]; [auto|right; exists q; cbn; auto].
        * intros [X|(q & [<-|Hq] & X)]; [auto|destruct X; contradiction|right; exists q; auto]. }
  refine (means_ext _ _ _ _ _ (F _ _ _ R (means_false N HN p Hp)) _).
  intros s t S T. unfold can_move. split.
  - intros [[]|(r & H & M)]. apply in_flat_map in H. destruct H as (a & A & H). exists a. split; auto.
    destruct (ACTS a A) as (A1 & A2). apply (class_iff N HN a A1 A2). eauto.
  - intros (a & A & M). right. destruct (ACTS a A) as (A1 & A2). apply (class_iff N HN a A1 A2) in M. destruct M as (r & H & M).
    exists r. split; auto. apply in_flat_map. eauto.
Qed.

(** The state that has the values of [t] on [l] and those of [s] elsewhere. *)
Definition mix (l s t : list nat) : list nat := map (fun k => if existsb (Nat.eqb k) l then nth k t 0 else nth k s 0) (seq 0 (length ds)).
Lemma nth_mix : forall l s t k, k < length ds -> nth k (mix l s t) 0 = if existsb (Nat.eqb k) l then nth k t 0 else nth k s 0.
Proof.
  intros l s t k K. unfold mix. set (f := fun k => if existsb (Nat.eqb k) l then nth k t 0 else nth k s 0).
  rewrite (nth_indep _ 0 (f 0)) by (rewrite map_length, seq_length; auto). rewrite (map_nth f), seq_nth by auto. reflexivity.
Qed.
Lemma ok_of_nth : forall s, length s = length ds -> (forall k, k < length ds -> nth k s 0 < nth k ds 0) -> ok s.
Proof.
  unfold FmlaSpec.ok, values. generalize ds. intros d s. revert d. induction s as [|x s IH]; intros [|y d] L H; try discriminate; constructor.
  - apply (H 0). cbn. lia.
  - apply IH; [cbn in L; lia|]. intros k K. apply (H (S k)). cbn. lia.
Qed.
Lemma ok_nth : forall s, ok s -> forall k, k < length ds -> nth k s 0 < nth k ds 0.
Proof.
  unfold FmlaSpec.ok, values. generalize ds. intros d s H. induction H as [|x y s d XY H IH]; intros k K; cbn in K; [lia|].
  destruct k as [|k]; cbn; auto. apply IH. lia.
Qed.
Lemma ok_mix : forall l s t, ok s -> ok t -> ok (mix l s t).
Proof.
  intros l s t S T. apply ok_of_nth; [unfold mix; rewrite map_length, seq_length; auto|]. intros k K. rewrite nth_mix by auto.
  destruct (existsb (Nat.eqb k) l); apply ok_nth; auto.
Qed.
Lemma eqb_in : forall k l, existsb (Nat.eqb k) l = true <-> In k l.
Proof.
  intros k l. rewrite existsb_exists. split; [intros (y & Y & E); apply Nat.eqb_eq in E; subst; auto|]. intros H. exists k. split; auto. apply Nat.eqb_refl.
Qed.

Lemma takes_iff : forall p x, In p (pcs N) -> means N p x (can_move N acts p) -> forall a s t, ok a -> ok s -> ok t ->
  (eval x (join a t s) = true <-> takes_part N acts p s t).
Proof.
  intros p x Hp ((W & TX & WO & MK) & E) a s t A S T. cbn [xn proc_of wvbls mask] in *. unfold takes_part. split.
  - intros H. exists (mix (written N p) s t). assert (OM := ok_mix (written N p) s t S T). split; auto.
    assert (EQ : forall k, In k (written N p) -> nth k t 0 = nth k (mix (written N p) s t) 0).
    { intros k K. rewrite nth_mix by (unfold wf_ids in W; rewrite Forall_forall in W; auto). rewrite (proj2 (eqb_in k _) K). auto. }
    split.
    + apply E; auto. split; cbn [xn proc_of wvbls].
      * unfold steps. apply (WO s t (mix (written N p) s t) s); auto. apply (TX a s t s); auto.
      * intros k K NI. rewrite nth_mix by auto. destruct (existsb (Nat.eqb k) (written N p)) eqn:X; auto. apply eqb_in in X. contradiction.
    + intros k K. apply EQ. apply written_iff; auto.
  - intros (t' & T' & M & EQ). apply E in M; auto. destruct M as (M & _). cbn [xn proc_of] in M. unfold steps in M.
    apply (TX a s t s); auto. apply (WO s t' t s); auto. intros k K. symmetry. apply EQ. apply written_iff in K; auto.
Qed.
Lemma enabled_iff : forall p x, In p (pcs N) -> means N p x (can_move N acts p) -> forall a i s, ok a -> ok i -> ok s ->
  (eval (pre_PFmla ds x) (join a i s) = true <-> exists t, ok t /\ can_move N acts p s t).
Proof.
  intros p x Hp M a i s A I S. rewrite ev_pre by auto. split.
  - intros (t & T & H). apply (takes_iff p x Hp M a s t A S T) in H. destruct H as (t' & T' & C & _). eauto.
  - intros (t & T & H). exists t. split; auto. apply (takes_iff p x Hp M a s t A S T). exists t. auto.
Qed.

Lemma keep_all : forall l x a i s, wf_ids ds l -> ok a -> ok i -> ok s ->
  (eval (fold_left (fun x v => and_PFmla x (img_eq_PFmlaVbl ds v v)) l x) (join a i s) = true <->
   eval x (join a i s) = true /\ forall v, In v l -> nth v i 0 = nth v s 0).
Proof.
  intros l x a i p W A I P. rewrite fold_and, andb_true_iff, forallb_forall.
  assert (K : forall v, In v l -> (eval (img_eq_PFmlaVbl ds v v) (join a i p) = true <-> nth v i 0 = nth v p 0)).
  { intros v Hv. assert (V : v < length ds) by (eapply Forall_forall in W; eauto). rewrite ev_img_eq, Nat.eqb_eq by auto.
    unfold domsz. rewrite Nat.mod_small by (apply FmlaProofs.ok_nth; auto). tauto. }
  split; intros (H1 & H2); split; auto; intros v Hv; apply K; auto.
Qed.
Lemma own_ids : forall p, In p (pcs N) -> wf_ids ds (own_wvbls N p).
Proof.
  intros p Hp. pose proof (wf_written N HN p Hp) as W. unfold written in W. apply Forall_app in W. destruct W as (W & _). exact W.
Qed.
Lemma part_iff : forall fully p x, In p (pcs N) -> means N p x (can_move N acts p) -> forall a s t, ok a -> ok s -> ok t ->
  (eval (sync_part N fully (p, x)) (join a t s) = true <->
   takes_part N acts p s t \/ (stands_still N p s t /\ (fully = true -> ~ exists t', ok t' /\ can_move N acts p s t'))).
Proof.
  intros fully p x Hp M a s t A S T. unfold sync_part. cbn [fst snd]. rewrite eval_or, orb_true_iff, (takes_iff p x Hp M a s t A S T).
  assert (K : eval (keep_own N p) (join a t s) = true <-> stands_still N p s t).
  { unfold keep_own. rewrite keep_all by (auto; apply own_ids; auto). unfold stands_still. split.
    - intros (_ & H) v V. apply H. apply own_iff; auto.
    - intros H. split; [reflexivity|]. intros v V. apply H. apply own_iff in V; auto. }
  destruct fully.
  - rewrite eval_nimp, andb_true_iff, negb_true_iff, <- not_true_iff_false, (enabled_iff p x Hp M a t s A T S), K. tauto.
  - rewrite K. intuition discriminate.
Qed.

(** ** The error *)
Lemma distinct_iff : forall l, distinct l = true <-> NoDup l.
Proof.
  induction l as [|x l IH]; cbn; [split; [constructor|auto]|]. rewrite andb_true_iff, negb_true_iff, <- not_true_iff_false, eqb_in, IH. split.
  - intros (H1 & H2). constructor; auto.
  - intros H. inversion H; auto.
Qed.
Lemma own_list : forall p, own_wvbls N p = map (vbl_at p) (filter (fun i => write_ck (acc (kind_of N p) i)) (seq 0 (nr (kind_of N p)))).
Proof.
  intros p. unfold own_wvbls, wvbl, nw. fold (wmap (kind_of N p)). generalize (wmap (kind_of N p)). intros l.
  transitivity (map (rvbl p) (map (fun w => nth w l 0) (seq 0 (length l)))); [rewrite map_map; auto|]. f_equal.
  induction l as [|x l IH]; [auto|]. cbn [length seq map nth]. f_equal. rewrite <- seq_shift, map_map. exact IH.
Qed.
Lemma write_iff : forall x, write_ck x = true <-> writable x.
Proof. intros x. unfold write_ck, writable. destruct (a_type x); intuition discriminate. Qed.
Lemma nodup_dec_map : forall (f : nat -> nat) l, ~ NoDup (map f l) -> NoDup l -> exists i i', i <> i' /\ In i l /\ In i' l /\ f i = f i'.
Proof.
  intros f l. induction l as [|x l IH]; intros H ND; [exfalso; apply H; constructor|]. inversion ND; subst. cbn in H.
  destruct (in_dec Nat.eq_dec (f x) (map f l)) as [X|X].
  - apply in_map_iff in X. destruct X as (y & E & Y). exists x, y. split; [intros ->; contradiction|]. cbn. auto.
  - destruct IH as (i & i' & NE & I1 & I2 & E); auto; [intros Q; apply H; constructor; auto|]. exists i, i'. cbn. auto.
Qed.
Lemma own_access : forall p x, In x (own_wvbls N p) <-> exists i, i < accesses N p /\ writable (access_at N p i) /\ vbl_at p i = x.
Proof.
  intros p x. rewrite own_list, in_map_iff. split.
  - intros (i & E & I). apply filter_In in I. destruct I as (I & W). apply in_seq in I. exists i. split; [apply I|]. split; auto. apply write_iff. exact W.
  - intros (i & I & W & E). exists i. split; auto. apply filter_In. split; [apply in_seq; split; [lia|exact I]|]. apply write_iff. exact W.
Qed.
Lemma twice_iff : ~ NoDup (flat_map (own_wvbls N) (pcs N)) <-> written_twice N.
Proof.
  unfold written_twice. generalize (pcs N). clear. intros l. induction l as [|p l IH]; cbn [flat_map].
  - split; [intros H; exfalso; apply H; constructor|]. intros (j & i & j' & i' & p & p' & _ & E & _). destruct j; discriminate.
  - split.
    + intros H.
      assert (D : ~ NoDup (own_wvbls N p) \/ ~ NoDup (flat_map (own_wvbls N) l) \/ exists x, In x (own_wvbls N p) /\ In x (flat_map (own_wvbls N) l)).
      { destruct (ListDec.NoDup_dec Nat.eq_dec (own_wvbls N p)) as [A|A]; auto. right.
        destruct (ListDec.NoDup_dec Nat.eq_dec (flat_map (own_wvbls N) l)) as [B|B]; auto. right.
        destruct (existsb (fun x => existsb (Nat.eqb x) (flat_map (own_wvbls N) l)) (own_wvbls N p)) eqn:X.
        - apply existsb_exists in X. destruct X as (x & X1 & X2). apply eqb_in in X2. eauto.
        - exfalso. apply H. clear H IH. induction (own_wvbls N p) as [|x w IHw]; [exact B|]. cbn in X. apply orb_false_iff in X. destruct X as (X1 & X2).
          inversion A; subst. cbn. constructor; auto. rewrite in_app_iff. intros [Y|Y]; auto. apply eqb_in in Y. congruence. }
      destruct D as [D|[D|(x & X1 & X2)]].
      * rewrite own_list in D. apply nodup_dec_map in D; [|apply NoDup_filter, seq_NoDup]. destruct D as (i & i' & NE & I1 & I2 & E).
        apply filter_In in I1, I2. destruct I1 as (I1 & W1), I2 as (I2 & W2). apply in_seq in I1, I2.
        exists 0, i, 0, i', p, p. split; [congruence|]. do 2 (split; [reflexivity|]). split; [apply I1|]. split; [apply I2|].
        split; [apply write_iff; exact W1|]. split; [apply write_iff; exact W2|]. exact E.
      * apply IH in D. destruct D as (j & i & j' & i' & q & q' & NE & J & J' & REST). exists (S j), i, (S j'), i', q, q'. split; [congruence|]. cbn. auto.
      * apply own_access in X1. destruct X1 as (i & I & W & E). apply in_flat_map in X2. destruct X2 as (q & Q & X2). apply own_access in X2. destruct X2 as (i' & I' & W' & E').
        apply In_nth_error in Q. destruct Q as (j & J). exists 0, i, (S j), i', p, q. split; [congruence|]. cbn. repeat split; auto. congruence.
    + intros (j & i & j' & i' & q & q' & NE & J & J' & I & I' & W & W' & E) ND.
      assert (SP : NoDup (own_wvbls N p) /\ NoDup (flat_map (own_wvbls N) l) /\ forall x, In x (own_wvbls N p) -> ~ In x (flat_map (own_wvbls N) l)).
      { clear - ND. induction (own_wvbls N p) as [|x w IHw]; cbn in *; [repeat split; auto; constructor|]. inversion ND; subst. destruct (IHw H2) as (A & B & C).
        rewrite in_app_iff in H1. split; [constructor; auto|]. split; auto. intros y [<-|Y]; auto. }
      destruct SP as (A & B & C). destruct j as [|j], j' as [|j']; cbn in J, J'.
      * injection J as <-. injection J' as <-. assert (NI : i <> i') by congruence. rewrite own_list in A. clear - A NI I I' W W' E.
        assert (K : forall l, NoDup (map (vbl_at p) l) -> In i l -> In i' l -> False).
        { induction l as [|x l IH]; cbn; [auto|]. intros ND H1 H2. inversion ND; subst. destruct H1 as [<-|H1], H2 as [<-|H2]; auto; [apply H3; rewrite E; apply in_map; auto|].
          apply H3. rewrite <- E. apply in_map. auto. }
        apply (K _ A); apply filter_In; (split; [apply in_seq; split; [lia|assumption]|apply write_iff; assumption]).
      * injection J as <-. apply (C (vbl_at p i)); [apply own_access; eauto|]. apply in_flat_map. exists q'. split; [eapply nth_error_In; eauto|]. apply own_access. exists i'. auto.
      * injection J' as <-. apply (C (vbl_at p i')); [apply own_access; eauto|]. apply in_flat_map. exists q. split; [eapply nth_error_In; eauto|]. apply own_access. exists i. auto.
      * apply IH; auto. exists j, i, j', i', q, q'. repeat split; auto. congruence.
Qed.

Lemma ids_all : forall l, wf_ids ds l -> forall x a i s (Q : list nat), wf_ids ds Q -> ok a -> ok i -> ok s ->
  (forall a i s, ok a -> ok i -> ok s -> (eval x (join a i s) = true <-> agree_off ds Q i s)) ->
  (eval (fold_left (fun x v => smooth_vbls ds x [v] AllCopies) l x) (join a i s) = true <-> agree_off ds (l ++ Q) i s).
Proof.
  intros l W x a i s Q WQ A I S H. rewrite (fold_smooth ds l x Q); auto. tauto.
Qed.

Lemma sync_spec : forall fully, 
  (sync_xn N fully acts = None <-> written_twice N) /\
  forall x, sync_xn N fully acts = Some x -> trans_fmla ds x /\
  forall s t, ok s -> ok t -> (steps x s t <-> joint_step N acts fully s t).
Proof.
  intros fully. unfold sync_xn. cbv zeta. split.
  - rewrite <- twice_iff, <- distinct_iff. destruct (distinct (flat_map (own_wvbls N) (pcs N))); cbn; [intuition discriminate|intuition].
  - intros x. destruct (distinct (flat_map (own_wvbls N) (pcs N))); cbn [negb]; [|discriminate]. intros E. injection E as <-.
    assert (K : forall a i s, ok a -> ok i -> ok s ->
      (eval (nimp_PFmla (and_PFmla (all_of (map (sync_part N fully) (combine (pcs N) (sync_procs N acts))) (Cst true))
          (fold_left (fun x v => and_PFmla x (img_eq_PFmlaVbl ds v v))
             (filter (fun v => negb (existsb (Nat.eqb v) (flat_map (own_wvbls N) (pcs N)))) (all_ids ds)) (Cst true)))
          (fold_left (fun x v => smooth_vbls ds x [v] AllCopies) (random_vbls N) (identity_xn ds))) (join a i s) = true <-> joint_step N acts fully s i)).
    { intros a i s A I S. rewrite eval_nimp, eval_and, !andb_true_iff, negb_true_iff, <- not_true_iff_false.
      assert (E1 : eval (all_of (map (sync_part N fully) (combine (pcs N) (sync_procs N acts))) (Cst true)) (join a i s) = true <->
        forall p, In p (pcs N) -> takes_part N acts p s i \/ (stands_still N p s i /\ (fully = true -> ~ exists t', ok t' /\ can_move N acts p s t'))).
      { rewrite eval_all_of. cbn [eval andb]. pose proof sync_denotes as D. unfold denotes in D.
        assert (G : forall l xs, (forall p, In p l -> In p (pcs N)) -> Forall2 (fun p x => means N p x (can_move N acts p)) l xs ->
          (forallb (fun f => eval f (join a i s)) (map (sync_part N fully) (combine l xs)) = true <->
           forall p, In p l -> takes_part N acts p s i \/ (stands_still N p s i /\ (fully = true -> ~ exists t', ok t' /\ can_move N acts p s t')))).
        { intros l xs IN F. induction F as [|p y l ys M F IH]; cbn [combine map forallb].
          - split; auto. intros _ p [].
          - rewrite andb_true_iff, (part_iff fully p y (IN p (or_introl eq_refl)) M a s i A S I), IH by (intros; apply IN; right; auto). split.
            + intros (H1 & H2) q [<-|Q]; auto.
            + intros H. split; [apply H; left; auto|]. intros q Q. apply H. right. auto. }
        apply G; auto. }
      assert (E2 : eval (fold_left (fun x v => and_PFmla x (img_eq_PFmlaVbl ds v v))
             (filter (fun v => negb (existsb (Nat.eqb v) (flat_map (own_wvbls N) (pcs N)))) (all_ids ds)) (Cst true)) (join a i s) = true <->
        forall x, x < length ds -> (forall p, In p (pcs N) -> ~ own N p x) -> nth x i 0 = nth x s 0).
      { rewrite keep_all; auto.
        - split.
          + intros (_ & H) x X NO. apply H. apply filter_In. split; [unfold all_ids; apply in_seq; lia|]. apply negb_true_iff, not_true_iff_false. rewrite eqb_in, in_flat_map.
            intros (p & P & O). apply (NO p P). apply own_iff in O; auto.
          + intros H. split; [reflexivity|]. intros v V. apply filter_In in V. destruct V as (V1 & V2). unfold all_ids in V1. apply in_seq in V1. apply H; [lia|].
            intros p P O. apply negb_true_iff in V2. apply not_true_iff_false in V2. apply V2. apply eqb_in, in_flat_map. exists p. split; auto. apply own_iff; auto.
        - unfold wf_ids. rewrite Forall_forall. intros v V. apply filter_In in V. destruct V as (V & _). unfold all_ids in V. apply in_seq in V. lia. }
      assert (E3 : eval (fold_left (fun x v => smooth_vbls ds x [v] AllCopies) (random_vbls N) (identity_xn ds)) (join a i s) = true <-> agree_off ds (random_vbls N) i s).
      { assert (WR : wf_ids ds (random_vbls N)).
        { unfold wf_ids. rewrite Forall_forall. intros v V. apply fickle_iff in V; auto. destruct V as (p & j & P & J & _ & <-). destruct (no_id _ HN p j P J) as (L & _). exact L. }
        rewrite (ids_all _ WR (identity_xn ds) a i s []); auto; [rewrite app_nil_r; tauto|constructor|]. intros; apply ev_identity; auto. }
      rewrite E1, E2, E3. split.
      - intros ((H1 & H2) & H3). constructor; auto.
        destruct (existsb (fun v => negb (existsb (Nat.eqb v) (random_vbls N)) && negb (nth v i 0 =? nth v s 0)) (all_ids ds)) eqn:X.
        + apply existsb_exists in X. destruct X as (v & V & X). apply andb_true_iff in X. destruct X as (X1 & X2). unfold all_ids in V. apply in_seq in V.
          exists v. split; [lia|]. split.
          * intros F. apply fickle_iff in F; auto. apply eqb_in in F. rewrite F in X1. discriminate.
          * apply negb_true_iff, Nat.eqb_neq in X2. auto.
        + exfalso. apply H3. intros k KL KN. destruct (Nat.eqb_spec (nth k i 0) (nth k s 0)) as [|NE]; auto. exfalso.
          apply not_true_iff_false in X. apply X. apply existsb_exists. exists k. split; [unfold all_ids; apply in_seq; lia|]. apply andb_true_iff. split; apply negb_true_iff.
          * apply not_true_iff_false. rewrite eqb_in. auto.
          * apply Nat.eqb_neq. auto.
      - intros [H1 H2 (v & V & NF & NE)]. split; [split; auto|]. intros H. apply NE. apply H; auto. intros F. apply NF. apply fickle_iff; auto. }
    split.
    + intros a a' i s A A' I S. unfold meaning. rewrite (K a i s), (K a' i s) by auto. tauto.
    + intros s t S T. unfold steps, meaning. apply K; auto.
Qed.
End Sync.
