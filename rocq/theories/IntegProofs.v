(** The check of a system: proofs. *)
From Coq Require Import List Arith Bool Lia.
From Verif Require Import FinLib Radix FmlaModel FmlaSpec FmlaProofs FmlaProofs2 FmlaProofs3
  ActModel ActSpec NetModel NetSpec NetProofs FmlaProofs4 CandModel CandSpec CandProofs CmdModel CmdProofs IntegModel IntegSpec.
Import ListNotations.

Section Proofs.
Variable S : system.
Notation N := (s_net S).
Notation ds := (vdoms (s_net S)).
Notation ok := (FmlaSpec.ok ds).
Hypothesis HN : net_ok N.
Let INH : inhabited ds := no_dom _ HN.

Lemma random_known : wf_ids ds (random_vbls N).
Proof. apply Forall_forall. intros x I. apply (fickle_iff N) in I. destruct I as (p & i & P & L & _ & <-). apply (no_id _ HN p i P L). Qed.
Lemma kept_eval : forall a i s, ok a -> ok i -> ok s -> (eval (kept_xn S) (join a i s) = true <-> agree_off ds (random_vbls N) i s).
Proof. intros a i s A I S'. unfold kept_xn. change (fold_left _ _ _) with (mask_xn ds (random_vbls N)). apply ev_mask; auto. apply random_known. Qed.
Lemma shadow_iff : forall v, vbl_shadow S v = true <-> ~ puppet S v.
Proof. intros v. unfold vbl_shadow, role_at, puppet. destruct (nth v (vroles N) Direct); split; intros H; auto; try discriminate; try (exfalso; apply H; reflexivity). Qed.
Lemma self_eval : forall a i s, ok a -> ok i -> ok s -> (eval (shadow_self S) (join a i s) = true <-> forall v, v < length ds -> ~ puppet S v -> nth v i 0 = nth v s 0).
Proof.
  intros a i s A I S'. unfold shadow_self.
  assert (G : forall l x, (forall u, In u l -> u < length ds) -> eval (fold_left (fun x v => and_PFmla x (img_eq_PFmlaVbl ds v v)) l x) (join a i s)
     = eval x (join a i s) && forallb (fun u => nth u i 0 =? nth u s 0) l).
  { induction l as [|u l IH]; intros x Hl; cbn [fold_left forallb]; [rewrite andb_true_r; auto|].
    rewrite IH by (intros; apply Hl; cbn; auto). rewrite eval_and, (ev_img_eq ds) by (auto; apply Hl; cbn; auto).
    assert (U : u < length ds) by (apply Hl; cbn; auto). unfold domsz. rewrite (Nat.mod_small (nth u s 0)) by (apply ok_nth; auto).
    rewrite andb_assoc. reflexivity. }
  rewrite G.
  - cbn [eval andb]. rewrite forallb_forall. split.
    + intros H v V P. apply Nat.eqb_eq, H. apply filter_In. split; [apply in_seq; cbn; lia|]. apply shadow_iff; auto.
    + intros H v V. apply filter_In in V. destruct V as (V & R). apply in_seq in V. apply Nat.eqb_eq, H; [lia|]. apply shadow_iff; auto.
  - intros u U. apply filter_In in U. destruct U as (U & _). apply in_seq in U. lia.
Qed.
Definition puppets : list nat := filter (is_puppet N) (all_ids ds).
Lemma puppets_in : forall v, In v puppets <-> v < length ds /\ puppet S v.
Proof.
  intros v. unfold puppets, is_puppet, puppet, role_of. rewrite filter_In. unfold all_ids. rewrite in_seq. destruct (nth v (vroles N) Direct); split; intros [A B]; split; auto; try discriminate; try lia.
Qed.
Lemma fickle_known : forall v, fickle N v -> v < length ds.
Proof. intros v (p & i & P & L & _ & <-). apply (no_id _ HN p i P L). Qed.
Lemma small_equal : forall v s t, ok s -> ok t -> v < length ds -> nth v ds 0 < 2 -> nth v s 0 = nth v t 0.
Proof. intros v s t S' T V D. pose proof (ok_nth ds s v S' V). pose proof (ok_nth ds t v T V). unfold domsz in *. lia. Qed.
Lemma kept_self : ~ stray_draw S -> forall s t, ok s -> ok t -> agree_off ds (random_vbls N) t s -> forall v, v < length ds -> ~ puppet S v -> nth v t 0 = nth v s 0.
Proof.
  intros NS s t S' T A v V P. destruct (in_dec Nat.eq_dec v (random_vbls N)) as [I|I]; [|apply A; auto]. apply small_equal; auto.
  destruct (Nat.lt_ge_cases (nth v ds 0) 2) as [L|L]; auto. exfalso. apply NS. exists v. split; [apply (fickle_iff N); auto|]. auto.
Qed.
Lemma claims_iff : claims_hold S = true <-> ~ stray_draw S.
Proof.
  unfold claims_hold. rewrite !andb_true_iff. split.
  - intros [[_ H] _] (v & F & P & D). pose proof (fickle_known v F) as V. rewrite (subseteq_iff ds INH) in H.
    set (z := map (fun _ => 0) ds). assert (Z : ok z) by (apply zero_ok; auto).
    set (m := map (fun d => d - 1) ds). assert (M : ok m).
    { unfold m, FmlaSpec.ok. pose proof INH as G. unfold FmlaSpec.inhabited in G. clear -G. induction G; cbn [map]; constructor; auto. lia. }
    set (t := over ds [v] m z). assert (T : ok t) by (apply over_ok; auto).
    assert (E : eval (shadow_self S) (join z t z) = true).
    { apply H; auto. apply kept_eval; auto. intros k K NI. apply over_out; auto. intros [<-|[]]. apply NI, (fickle_iff N); auto. }
    rewrite self_eval in E by auto. specialize (E v V P). unfold t in E. rewrite over_in in E by (auto; left; auto).
    assert (E1 : nth v m 0 = nth v ds 0 - 1) by (unfold m; exact (map_nth (fun d => d - 1) ds 0 v)).
    assert (E2 : nth v z 0 = 0) by (unfold z; exact (map_nth (fun _ : nat => 0) ds 0 v)). lia.
  - intros NS. assert (Z : ok (map (fun _ => 0) ds)) by (apply zero_ok; auto). split; [split|].
    + apply (sat_iff ds INH). exists (map (fun _ => 0) ds), (map (fun _ => 0) ds), (map (fun _ => 0) ds). repeat (split; [auto|]). apply kept_eval; auto. intros k K NI. auto.
    + apply (subseteq_iff ds INH). intros a i s A I S' H. rewrite kept_eval in H by auto. rewrite self_eval by auto. apply kept_self; auto.
    + apply (equiv_iff ds INH). intros a i s A I S'. apply eq_true_iff_eq. rewrite self_eval by auto. unfold proj_shadow. fold puppets.
      rewrite (smooth_some_spec ds N eq_refl (fun s i => agree_off ds (random_vbls N) i s)); auto.
      * split.
        -- intros (s' & t' & S1 & T1 & A1 & A2 & K) v V P. assert (NP : ~ In v puppets) by (rewrite puppets_in; tauto).
           rewrite <- (A1 v V NP), <- (A2 v V NP). apply (kept_self NS s' t'); auto.
        -- intros H. exists s, (over ds puppets s i). split; auto. split; [apply over_ok; auto|]. split; [intros k K NI; auto|]. split; [intros k K NI; apply over_out; auto|].
           intros k K NI. destruct (in_dec Nat.eq_dec k puppets) as [J|J]; [apply over_in; auto|]. rewrite over_out by auto. apply H; auto. intros P. apply J, puppets_in; auto.
      * apply Forall_forall. intros v V. apply puppets_in in V. apply V.
      * intros a' i' s' A' I' S1. apply kept_eval; auto.
Qed.
Lemma draws_iff : random_reads_puppets S = true <-> draws_puppets S.
Proof.
  unfold random_reads_puppets, draws_puppets. rewrite forallb_forall. split.
  - intros H k a K A R. specialize (H k K). rewrite forallb_forall in H. specialize (H a A). unfold random_read_ck in H. rewrite R in H. cbn in H. destruct (a_role a); auto; discriminate.
  - intros H k K. apply forallb_forall. intros a A. unfold random_read_ck. destruct (a_type a) eqn:R; auto. rewrite (H k a K A R). reflexivity.
Qed.
Lemma draws_no_stray : draws_puppets S -> ~ stray_draw S.
Proof.
  intros D (v & (p & i & P & L & R & E) & NP & _). apply NP. unfold puppet. destruct (no_id _ HN p i P L) as (_ & _ & X). rewrite <- E, X.
  apply (D (its_kind N p)); auto; [|apply nth_In; auto]. apply nth_In. apply (no_kind _ HN p P).
Qed.
Hypothesis HI : state_fmla ds (s_invariant S).
Lemma fits_iff : invariant_fits S = true <-> legitimate_for_all S.
Proof.
  unfold invariant_fits, legitimate_for_all, smooth_shadow. rewrite andb_true_iff, (sat_state ds INH _ HI), (tautology_iff ds INH).
  assert (W : wf_ids ds (filter (vbl_shadow S) (all_ids ds))) by (apply Forall_forall; intros v V; apply filter_In in V; destruct V as [V _]; apply in_seq in V; lia).
  assert (IN : forall v, v < length ds -> (In v (filter (vbl_shadow S) (all_ids ds)) <-> ~ puppet S v)).
  { intros v V. rewrite filter_In, shadow_iff. split; [tauto|]. intros H. split; auto. apply in_seq. lia. }
  assert (DEC : forall v, puppet S v \/ ~ puppet S v) by (intros v; unfold puppet; destruct (nth v (vroles N) Direct); auto; right; discriminate).
  split.
  - intros [_ H] s S'. specialize (H s s s S' S' S'). rewrite ev_smooth_vbls in H by auto. destruct H as (a & i & t & A & I & T & _ & _ & AG & E).
    exists t. split; auto. split.
    + intros v V P. apply AG; auto. rewrite IN by auto. tauto.
    + unfold holds, meaning. rewrite (state_eval ds _ HI a i t A I T) in E. exact E.
  - intros H. split.
    + destruct (H (map (fun _ => 0) ds) (zero_ok ds INH)) as (t & T & _ & X). exists t. auto.
    + intros a i s A I S'. rewrite ev_smooth_vbls by auto. destruct (H s S') as (t & T & AG & X).
      exists a, i, t. do 3 (split; [auto|]). split; [intros k K NI; auto|]. split; [intros k K NI; auto|]. split.
      * intros k K NI. apply AG; auto. destruct (DEC k) as [P|P]; auto. exfalso. apply NI, IN; auto.
      * rewrite (state_eval ds _ HI a i t A I T). exact X.
Qed.
End Proofs.
