(** Candidate actions: the verdict. *)
From Coq Require Import List Arith Bool Lia.
From Verif Require Import FinLib Radix FmlaModel FmlaSpec FmlaProofs FmlaProofs2 FmlaProofs3 FmlaProofs4 FmlaProps
  ActModel ActSpec ActProofs ActProofs2 ActProofs4 ActProps NetModel NetSpec NetProofs NetProofs2 NetProofs3 NetProofs4 NetProofs5
  CandModel CandSpec CandProofs.
Import ListNotations.

Section Cand.
Variable S : system.
Notation N := (s_net S).
Notation ds := (vdoms (s_net S)).
Notation ok := (FmlaSpec.ok (vdoms (s_net S))).
Hypothesis HS : system_ok S.
Let HN : net_ok N := so_net S HS.
Let INH : inhabited ds := inh N HN.

Section Action.
Variables (lw : bool) (a : nat).
Hypothesis Ha : a < actions_in (kinds N).
Hypothesis Hr : representative_action_index (kinds N) a = Some a.

Lemma xfmlae_denotes : exists R, denotes N (action_xfmlae N lw a) R.
Proof.
  unfold action_xfmlae. destruct lw.
  - eexists. apply light_denotes; auto.
  - eexists. apply cached_trace; auto.
Qed.

Lemma rep_means : forall j p, nth_error (pcs N) j = Some p -> p_kind p = act_pc (act_of (kinds N) a) ->
  means N p (represented_xns_of_pc N lw a (j, p)) (fun s t => process_step N (action_xfmlae N lw a) j s t).
Proof. apply (net_rep_means N HN); auto. Qed.

(** Comparing the formula of the process with one that is as local as it. *)
Lemma local_sub : forall p x R f, In p (pcs N) -> means N p x R -> In f [p_puppet p; p_permit p; p_forbid p] ->
  (subseteq_ck ds x f = true <-> forall s t, ok s -> ok t -> R s t -> steps f s t).
Proof.
  intros p x R f Hp ((W & TX & WO & MK) & E) Hf. destruct (no_local _ HN p Hp f Hf) as (TF & LF). cbn [xn proc_of wvbls mask] in *.
  rewrite (sub_trans ds INH) by auto. split.
  - intros H s t S' T X. apply E in X; auto. apply H; auto. apply X.
  - intros H s t S' T X.
    assert (O : ok (over ds (written N p) t s)) by (apply over_ok; auto).
    assert (AG : forall k, In k (written N p) -> nth k t 0 = nth k (over ds (written N p) t s) 0).
    { intros k Hk. unfold wf_ids in W. rewrite Forall_forall in W. rewrite over_in; auto. }
    apply (LF s t (over ds (written N p) t s) s); auto.
    { intros k Hk. apply AG. apply written_iff; auto. }
    apply H; auto. apply E; auto. split.
    + cbn [xn proc_of]. apply (WO s t (over ds (written N p) t s) s); auto.
    + cbn [wvbls proc_of]. apply agree_sym, over_agree.
Qed.

Lemma sub_trans_not : forall f g, subseteq_ck ds f g = false -> trans_fmla ds f -> trans_fmla ds g ->
  exists s t, ok s /\ ok t /\ steps f s t /\ ~ steps g s t.
Proof.
  intros f g E TF TG.
  set (l := list_prod (assignments ds) (assignments ds)).
  set (q := fun st : list nat * list nat => eval f (join (fst st) (snd st) (fst st)) && negb (eval g (join (fst st) (snd st) (fst st)))).
  destruct (existsb q l) eqn:B.
  - apply existsb_exists in B. destruct B as ((s & t) & I & B). apply in_prod_iff in I. rewrite !in_assignments in I.
    unfold q in B. cbn [fst snd] in B. apply andb_true_iff in B. destruct B as (B1 & B2). apply negb_true_iff in B2.
    exists s, t. unfold steps, meaning. rewrite B1, B2. intuition discriminate.
  - exfalso. enough (subseteq_ck ds f g = true) by congruence. apply (sub_trans ds INH); auto. intros s t S' T F.
    unfold steps, meaning in *. destruct (eval g (join s t s)) eqn:G; auto. exfalso. enough (existsb q l = true) by congruence.
    apply existsb_exists. exists (s, t). split; [apply in_prod_iff; rewrite !in_assignments; auto|]. unfold q. cbn [fst snd]. rewrite F, G. auto.
Qed.

Lemma local_not : forall p x R f, In p (pcs N) -> means N p x R -> In f [p_puppet p; p_permit p; p_forbid p] ->
  subseteq_ck ds x f = false -> exists s t, ok s /\ ok t /\ R s t /\ ~ steps f s t.
Proof.
  intros p x R f Hp ((W & TX & WO & MK) & E) Hf B. destruct (no_local _ HN p Hp f Hf) as (TF & LF). cbn [xn proc_of wvbls mask] in *.
  destruct (sub_trans_not x f B) as (s & t & S' & T & X & NX); auto.
  assert (O : ok (over ds (written N p) t s)) by (apply over_ok; auto).
  assert (AG : forall k, In k (written N p) -> nth k t 0 = nth k (over ds (written N p) t s) 0).
  { intros k Hk. unfold wf_ids in W. rewrite Forall_forall in W. rewrite over_in; auto. }
  exists s, (over ds (written N p) t s). split; auto. split; auto. split.
  - apply E; auto. split.
    + cbn [xn proc_of]. apply (WO s t (over ds (written N p) t s) s); auto.
    + cbn [wvbls proc_of]. apply agree_sym, over_agree.
  - intros F. apply NX. apply (LF s t (over ds (written N p) t s) s); auto.
    intros k Hk. apply AG. apply written_iff; auto.
Qed.

Lemma means_sat : forall p x R, In p (pcs N) -> means N p x R -> (sat_ck ds x = true <-> exists s t, ok s /\ ok t /\ R s t).
Proof.
  intros p x R Hp ((W & TX & WO & MK) & E). cbn [xn proc_of wvbls mask] in *.
  rewrite (sat_trans ds INH) by auto. split.
  - intros (s & t & S' & T & X). exists s, (over ds (written N p) t s). split; auto. split; [apply over_ok; auto|].
    apply E; auto; [apply over_ok; auto|]. split.
    + cbn [xn proc_of]. apply (WO s t (over ds (written N p) t s) s); auto; [apply over_ok; auto|].
      intros k Hk. unfold wf_ids in W. rewrite Forall_forall in W. rewrite over_in; auto.
    + cbn [wvbls proc_of]. apply agree_sym, over_agree.
  - intros (s & t & S' & T & X). exists s, t. split; auto. split; auto. apply E in X; auto. apply X.
Qed.

Lemma act_trans : trans_fmla ds (action_pfmla N lw a).
Proof.
  unfold action_pfmla. destruct lw.
  - unfold action_pfmla_light. cbv zeta.
    assert (G : forall l x, (forall r, In r l -> r < actions_in (kinds N)) -> trans_fmla ds x ->
       trans_fmla ds (fold_left (fun x r => or_PFmla x (make_action_pfmla N r)) l x)).
    { induction l as [|r l IH]; intros x Hl TX; cbn [fold_left]; auto. apply IH; [intros; apply Hl; cbn; auto|].
      apply or_trans; auto. apply (denotes_trans N _ _ (denotes_action N HN r (Hl r (or_introl eq_refl)))). }
    assert (TX := G (represented_actions (kinds N) a) (Cst false) (fun r H => proj1 (proj1 (represented_iff _ _ _) H))).
    assert (TF : trans_fmla ds (Cst false)) by (intros b b' i q _ _ _ _; unfold meaning; cbn; tauto). specialize (TX TF).
    set (x := fold_left _ _ _) in *. destruct (random_write_exists _); auto.
    intros b b' i q B B' I Q. unfold meaning. rewrite !eval_nimp, !andb_true_iff.
    rewrite (state_eval ds _ (img_is_state ds x TX) b i q B I Q), (state_eval ds _ (img_is_state ds x TX) b' i q B' I Q).
    specialize (TX b b' i q B B' I Q). unfold meaning in TX. rewrite TX. tauto.
  - apply (denotes_trans N _ _ (cached_trace N HN a Ha)).
Qed.

Section Verdict.
Hypothesis NS : no_shadow_variables S.
Hypothesis HL : exists s, ok s /\ legitimate S s.
Notation k := (nth (act_pc (act_of (kinds N) a)) (kinds N) pc0).
Notation v := (vals (act_of (kinds N) a)).
Variables (j : nat) (p : process).
Hypothesis HM : some_memb N (act_pc (act_of (kinds N) a)) = Some (j, p).

Lemma memb_facts : nth_error (pcs N) j = Some p /\ In p (pcs N) /\ p_kind p = act_pc (act_of (kinds N) a).
Proof.
  pose proof (some_memb_spec S HS (act_pc (act_of (kinds N) a))) as H. rewrite HM in H. destruct H as (H1 & H2 & _).
  split; auto. split; auto. eapply nth_error_In. eauto.
Qed.

Lemma kind_is : kind_of N p = k.
Proof. destruct memb_facts as (_ & _ & H). unfold kind_of. rewrite H. reflexivity. Qed.

Lemma no_shadow_access : forall i, i < nr k -> pure_shadow_ck (acc k i) = false.
Proof.
  intros i Hi. destruct memb_facts as (_ & Hp & K). rewrite <- kind_is in Hi.
  destruct (no_id _ HN p i Hp Hi) as (_ & _ & R). rewrite <- kind_is. unfold pure_shadow_ck.
  change (acc (kind_of N p) i) with (access_at N p i). rewrite <- R. specialize (NS (vbl_at p i)).
  destruct (nth (vbl_at p i) (vroles N) Direct); congruence.
Qed.
Lemma no_shadow_waccess : forall w, w < nw k -> pure_shadow_ck (waccess k w) = false.
Proof. intros w Hw. unfold waccess. apply no_shadow_access. apply (wmap_nth k w Hw). Qed.

Lemma no_shadow_flags : shadow_selfloop k v = true /\ shadow_full_img k v = true /\ shadow_exists k = false.
Proof.
  unfold shadow_selfloop, shadow_full_img, shadow_exists. split; [|split].
  - apply forallb_forall. intros w Hw. apply in_seq in Hw. rewrite no_shadow_waccess by lia. reflexivity.
  - apply forallb_forall. intros w Hw. apply in_seq in Hw. rewrite no_shadow_waccess by lia. reflexivity.
  - apply not_true_iff_false. intros H. apply existsb_exists in H. destruct H as (w & Hw & H). apply in_seq in Hw.
    rewrite no_shadow_waccess in H by lia. discriminate.
Qed.

Lemma selfloop_iff : puppet_selfloop k v = true <-> inert k v.
Proof.
  unfold puppet_selfloop, inert. rewrite (forallb_written k _ (fun i => 
    a_type (acc k i) <> RandomWriteAccess /\ (visible (acc k i) -> assigned k v i = tested v i) /\
    (~ visible (acc k i) -> assigned k v i = a_dom (acc k i)))).
  - split; intros H i Hi W; apply H; auto; apply writable_ck; auto.
  - intros i Hi W. rewrite waccess_place by auto. rewrite no_shadow_access by auto.
    unfold keeps. rewrite waccess_place, aguard_place by auto. change (assign k v (place k i)) with (assigned k v i).
    pose proof (writeonly_visible k i W) as WV. destruct (random_write_ck (acc k i)) eqn:R.
    + unfold random_write_ck in R. split; [discriminate|]. intros (X & _). destruct (a_type (acc k i)); congruence.
    + assert (RT : a_type (acc k i) <> RandomWriteAccess) by (intros X; unfold random_write_ck in R; rewrite X in R; discriminate).
      destruct (synt_writeonly_ck (acc k i)) eqn:E; rewrite Nat.eqb_eq; split.
      * intros X. split; auto. split; auto. intros V. apply WV in V. congruence.
      * intros (_ & _ & X). apply X. intros V. apply WV in V. congruence.
      * intros X. split; auto. split; auto. intros V. exfalso. apply V. apply WV. auto.
      * intros (_ & X & _). apply X. apply WV. auto.
Qed.

Lemma puppet_all : puppet_ids S = all_ids ds.
Proof.
  unfold puppet_ids. assert (G : forall l, filter (fun x => negb (vbl_pure_shadow S x)) l = l).
  { induction l as [|x l IH]; cbn; auto. unfold vbl_pure_shadow, role_at. specialize (NS x).
    unfold vbl_pure_shadow, role_at in IH. destruct (nth x (vroles N) Direct); cbn [negb]; try congruence; rewrite IH; auto. }
  apply G.
Qed.

Lemma shadow_self_steps : forall s t, ok s -> ok t -> (steps (shadow_self S) s t <-> specified_part_kept S s t).
Proof.
  intros s t S' T. unfold steps, meaning, shadow_self.
  assert (G : forall l x, (forall u, In u l -> u < length ds) -> eval (fold_left (fun x v => and_PFmla x (img_eq_PFmlaVbl ds v v)) l x) (join s t s)
     = eval x (join s t s) && forallb (fun u => nth u t 0 =? nth u s 0) l).
  { induction l as [|u l IH]; intros x Hl; cbn [fold_left forallb]; [rewrite andb_true_r; auto|].
    rewrite IH by (intros; apply Hl; cbn; auto). rewrite eval_and, (ev_img_eq ds) by (auto; apply Hl; cbn; auto).
    assert (U : u < length ds) by (apply Hl; cbn; auto). unfold domsz. rewrite (Nat.mod_small (nth u s 0)) by (apply ok_nth; auto).
    rewrite andb_assoc. reflexivity. }
  rewrite G.
  - cbn [eval andb]. rewrite forallb_forall. unfold specified_part_kept. split.
    + intros H x Hx R. apply Nat.eqb_eq. apply H. apply filter_In. split; [apply in_seq; cbn; lia|].
      unfold vbl_shadow, role_at. destruct (nth x (vroles N) Direct); congruence.
    + intros H x Hx. apply filter_In in Hx. destruct Hx as (Hx & R). apply in_seq in Hx. apply Nat.eqb_eq. apply H; [lia|].
      unfold vbl_shadow, role_at in R. destruct (nth x (vroles N) Direct); congruence.
  - intros u Hu. apply filter_In in Hu. destruct Hu as (Hu & _). apply in_seq in Hu. lia.
Qed.
Lemma shadow_self_trans : trans_fmla ds (shadow_self S).
Proof.
  unfold shadow_self. assert (G : forall l x, (forall u, In u l -> u < length ds) -> trans_fmla ds x ->
     trans_fmla ds (fold_left (fun x v => and_PFmla x (img_eq_PFmlaVbl ds v v)) l x)).
  { induction l as [|u l IH]; intros x Hl TX; cbn [fold_left]; auto. apply IH; [intros; apply Hl; cbn; auto|]. apply and_trans; auto.
    intros b b' i q B B' I Q. unfold meaning. rewrite !(ev_img_eq ds) by (auto; apply Hl; cbn; auto). tauto. }
  apply G.
  - intros u Hu. apply filter_In in Hu. destruct Hu as (Hu & _). apply in_seq in Hu. lia.
  - intros b b' i q _ _ _ _. unfold meaning. cbn. tauto.
Qed.

Notation X := (action_pfmla N lw a).
Notation pcx := (represented_xns_of_pc N lw a (j, p)).

Lemma hi_state : state_fmla ds (hi_invariant S).
Proof. apply and_state; [apply so_invariant|apply so_assume]; auto. Qed.
Lemma hi_holds : forall s, holds (hi_invariant S) s <-> legitimate S s.
Proof. intros s. apply holds_and. Qed.

Lemma img_sub : forall Q f, state_fmla ds Q -> state_fmla ds f -> (exists s, ok s /\ holds Q s) ->
  (subseteq_ck ds (img1_PFmla ds X Q) f = true <-> ~ exists s t, act_step S lw a s t /\ holds Q s /\ ~ holds f t).
Proof.
  intros Q f SQ SF (s0 & S0 & H0).
  assert (NC : ~ const_true_on_empty ds X Q) by (intros (_ & _ & H); apply (H s0 S0 H0)).
  assert (SI : state_fmla ds (img1_PFmla ds X Q)).
  { assert (NB : forall b i : list nat, ok b -> ok i -> X = Cst true -> (exists q, Q = Mdd q) -> exists s, ok s /\ eval Q (join b i s) = true).
    { intros b i B I _ _. exists s0. split; auto. rewrite (state_eval ds Q SQ b i s0 B I S0). exact H0. }
    apply state_of_eval. intros b i q B I P. apply iff_eqb. rewrite !(ev_img1 ds) by (auto; apply NB; auto).
    split; intros (s & S' & E1 & E2); exists s; (split; [auto|]);
      rewrite (trans_eval ds _ act_trans) in * by auto; rewrite (state_eval ds Q SQ) in * by auto; auto. }
  rewrite (sub_state ds INH) by auto. split.
  - intros H (s & t & (S' & T & ST) & HQ & NF). apply NF. apply H; auto. apply (img1_state ds); auto using act_trans. exists s. auto.
  - intros H t T HI. apply (img1_state ds) in HI; auto using act_trans. destruct HI as (s & S' & ST & HQ).
    destruct (eval f (join t t t)) eqn:E; [exact E|]. exfalso. apply H. exists s, t. split; [split; auto|]. split; auto.
    unfold holds, meaning. rewrite E. discriminate.
Qed.

Lemma img_notsub : forall Q f, state_fmla ds Q -> state_fmla ds f -> (exists s, ok s /\ holds Q s) ->
  subseteq_ck ds (img1_PFmla ds X Q) f = false -> exists s t, act_step S lw a s t /\ holds Q s /\ ~ holds f t.
Proof.
  intros Q f SQ SF HQ B.
  set (l := list_prod (assignments ds) (assignments ds)).
  set (q := fun st : list nat * list nat => eval X (join (fst st) (snd st) (fst st)) && eval Q (join (fst st) (fst st) (fst st))
              && negb (eval f (join (snd st) (snd st) (snd st)))).
  destruct (existsb q l) eqn:E.
  - apply existsb_exists in E. destruct E as ((s & t) & I & E). apply in_prod_iff in I. rewrite !in_assignments in I.
    unfold q in E. cbn [fst snd] in E. apply andb_true_iff in E. destruct E as (E & E3). apply andb_true_iff in E. destruct E as (E1 & E2).
    apply negb_true_iff in E3. exists s, t. unfold act_step, steps, holds, meaning. rewrite E1, E2, E3. intuition discriminate.
  - exfalso. enough (subseteq_ck ds (img1_PFmla ds X Q) f = true) by congruence. apply img_sub; auto.
    intros (s & t & (S' & T & ST) & HQs & NF). enough (existsb q l = true) by congruence.
    apply existsb_exists. exists (s, t). split; [apply in_prod_iff; rewrite !in_assignments; auto|]. unfold q. cbn [fst snd].
    unfold steps, holds, meaning in *. rewrite ST, HQs. destruct (eval f _); auto.
Qed.

Lemma assumed_some : exists s, ok s /\ holds (s_assume S) s.
Proof. destruct HL as (s & S' & _ & H). eauto. Qed.
Lemma legit_some : exists s, ok s /\ holds (hi_invariant S) s.
Proof. destruct HL as (s & S' & H). exists s. split; auto. apply hi_holds. auto. Qed.

Lemma b_sat : sat_ck ds X = true <-> exists s t, act_step S lw a s t.
Proof. rewrite (sat_trans ds INH) by apply act_trans. unfold act_step. tauto. Qed.
Lemma pc_means : means N p pcx (fun s t => process_step N (action_xfmlae N lw a) j s t).
Proof. destruct memb_facts as (H1 & _ & H2). apply rep_means; auto. Qed.
Lemma in_pcs : In p (pcs N).
Proof. apply memb_facts. Qed.
Lemma b_forbid : subseteq_ck ds pcx (p_forbid p) = true <-> forbidden S lw a j p.
Proof.
  rewrite (local_sub p pcx _ (p_forbid p) in_pcs pc_means) by (cbn; auto). unfold forbidden, rep_step. split; intros H s t; intros; [apply H|apply H]; tauto.
Qed.
Lemma b_permit : sat_ck ds (p_permit p) && negb (subseteq_ck ds pcx (p_permit p)) = true <-> not_permitted S lw a j p.
Proof.
  rewrite andb_true_iff, negb_true_iff. unfold not_permitted, rep_step. rewrite (sat_iff ds INH).
  assert (G : subseteq_ck ds pcx (p_permit p) = false <-> exists s t, (ok s /\ ok t /\ process_step N (action_xfmlae N lw a) j s t) /\ ~ steps (p_permit p) s t).
  { split.
    - intros H. destruct (local_not p pcx _ (p_permit p) in_pcs pc_means) as (s & t & H1 & H2 & H3 & H4); cbn; auto. exists s, t. auto.
    - intros (s & t & (H1 & H2 & H3) & H4). apply not_true_iff_false. intros E. apply H4.
      apply (local_sub p pcx _ (p_permit p) in_pcs pc_means); cbn; auto. }
  rewrite G. reflexivity.
Qed.
Lemma b_inert : puppet_selfloop k v && shadow_selfloop k v = true <-> inert (nth (p_kind p) (kinds N) pc0) v.
Proof.
  destruct no_shadow_flags as (F & _ & _). rewrite F, andb_true_r. rewrite selfloop_iff. destruct memb_facts as (_ & _ & ->). tauto.
Qed.
Lemma b_leaves : negb (subseteq_ck ds (img1_PFmla ds X (s_assume S)) (s_assume S)) = true <-> leaves_assumption S lw a.
Proof.
  rewrite negb_true_iff. unfold leaves_assumption. split.
  - apply img_notsub; try apply so_assume; auto using assumed_some.
  - intros H. apply not_true_iff_false. intros E. revert H. apply img_sub; auto using assumed_some, (so_assume S HS).
Qed.
Lemma b_starts : overlap_ck ds (s_assume S) (pre_PFmla ds X) = true <-> starts_assumed S lw a.
Proof.
  rewrite (overlap_state ds INH) by (auto using (so_assume S HS), pre_is_state, act_trans). unfold starts_assumed, act_step. split.
  - intros (s & S' & H & P). apply (pre_state ds) in P; auto using act_trans. destruct P as (t & T & ST). exists s, t. auto.
  - intros (s & t & (S' & T & ST) & H). exists s. split; auto. split; auto. apply (pre_state ds); auto using act_trans. exists t. auto.
Qed.
Lemma b_starts' : overlap_ck ds (pre_PFmla ds X) (s_assume S) = true <-> starts_assumed S lw a.
Proof.
  rewrite <- b_starts, !(overlap_state ds INH) by (auto using (so_assume S HS), pre_is_state, act_trans). split; intros (s & H); exists s; tauto.
Qed.
Lemma b_image : sat_ck ds X = true -> overlap_ck ds (smooth_puppet S (img_PFmla ds X)) (hi_invariant S) = true.
Proof.
  intros E. apply b_sat in E. destruct E as (s & t & S' & T & ST). destruct legit_some as (l & L & HL').
  apply (overlap_iff ds INH). exists l, l, l. split; auto. split; auto. split; auto. split; [|exact HL'].
  unfold meaning, smooth_puppet. apply smooth_everything; auto using puppet_all. apply (sat_state ds INH); auto using img_is_state, act_trans.
  exists t. split; auto. apply (img_state ds); auto using act_trans. exists s. auto.
Qed.
Lemma b_closure : negb (subseteq_ck ds (img1_PFmla ds X (hi_invariant S)) (s_invariant S)) = true <-> breaks_closure S lw a.
Proof.
  rewrite negb_true_iff. unfold breaks_closure. split.
  - intros H. apply img_notsub in H; auto using hi_state, (so_invariant S HS), legit_some. destruct H as (s & t & H1 & H2 & H3).
    exists s, t. apply hi_holds in H2. auto.
  - intros (s & t & H1 & H2 & H3). apply not_true_iff_false. intros E. apply img_sub in E; auto using hi_state, (so_invariant S HS), legit_some.
    apply E. exists s, t. split; auto. split; auto. apply hi_holds. auto.
Qed.
Lemma b_spec : negb (subseteq_ck ds (and_PFmla X (hi_invariant S)) (or_PFmla (s_shadow S) (shadow_self S))) = true <-> breaks_specification S lw a.
Proof.
  rewrite negb_true_iff. unfold breaks_specification.
  assert (T1 : trans_fmla ds (and_PFmla X (hi_invariant S))) by (apply and_trans; [apply act_trans|apply state_trans, hi_state]).
  assert (T2 : trans_fmla ds (or_PFmla (s_shadow S) (shadow_self S))) by (apply or_trans; [apply so_shadow; auto|apply shadow_self_trans]).
  split.
  - intros H. destruct (sub_trans_not _ _ H T1 T2) as (s & t & S' & T & E1 & E2).
    apply (steps_and_state ds) in E1; auto using hi_state. destruct E1 as (E0 & E1). rewrite steps_or in E2. exists s, t. split; [repeat split; auto|]. split; [apply hi_holds; auto|].
    split; [tauto|]. rewrite <- (shadow_self_steps s t); auto.
  - intros (s & t & (S' & T & ST) & HL' & N1 & N2). apply not_true_iff_false. intros E.
    assert (Q : steps (or_PFmla (s_shadow S) (shadow_self S)) s t).
    { apply (proj1 (sub_trans ds INH _ _ T1 T2) E s t S' T). apply (steps_and_state ds); auto using hi_state. split; auto. apply hi_holds; auto. }
    apply steps_or in Q. rewrite (shadow_self_steps s t) in Q; auto. tauto.
Qed.

Lemma shadow_passes : sat_ck ds pcx = true -> puppet_selfloop k v = false -> judge_shadow S p k v pcx = Kept.
Proof.
  intros SX NI. unfold judge_shadow. destruct no_shadow_flags as (F1 & F2 & F3). rewrite F2, F3, NI, andb_false_r. cbn [andb orb].
  destruct (sat_ck ds (p_shadow p)) eqn:SP; cbn [negb]; auto.
  destruct (_ || _); auto.
  assert (E : equiv_ck ds (smooth_puppet S pcx) (shadow_xn S p k v) = true).
  { assert (SH : shadow_xn S p k v = smooth_puppet S (p_shadow p)).
    { unfold shadow_xn.
      assert (G1 : forall l x, (forall w, In w l -> w < nw k) ->
         fold_left (fun x w => if pure_shadow_ck (waccess k w) then
           if keeps k v w then and_PFmla x (img_eq_PFmlaVbl ds (wvbl N p w) (wvbl N p w))
           else smooth_vbls ds (and_PFmla x (img_eqc_PFmlaVbl ds (wvbl N p w) (assign k v w))) [wvbl N p w] Pre else x) l x = x).
      { induction l as [|w l IH]; intros x Hl; cbn [fold_left]; auto. rewrite no_shadow_waccess by (apply Hl; cbn; auto). apply IH. intros; apply Hl; cbn; auto. }
      rewrite G1 by (intros w Hw; apply in_seq in Hw; lia).
      assert (G2 : forall l x, (forall i, In i l -> i < nr k) ->
         fold_left (fun x i => if negb (write_ck (acc k i)) && pure_shadow_ck (acc k i) then smooth_vbls ds x [rvbl p i] AllCopies else x) l x = x).
      { induction l as [|i l IH]; intros x Hl; cbn [fold_left]; auto. rewrite no_shadow_access by (apply Hl; cbn; auto). rewrite andb_false_r. apply IH. intros; apply Hl; cbn; auto. }
      apply G2. intros i Hi. apply in_seq in Hi. lia. }
    rewrite SH. apply (equiv_iff ds INH). intros x i q A I Q. apply iff_eqb. unfold smooth_puppet.
    rewrite !(smooth_everything ds INH) by (auto; apply puppet_all). rewrite SX, SP. tauto. }
  rewrite E. reflexivity.
Qed.

Definition verdict_means (o : verdict) : Prop :=
  match o with
  | Kept => (exists s t, act_step S lw a s t) /\ ~ bad_anywhere S lw a j p /\ starts_assumed S lw a /\ ~ bad_when_legitimate S lw a
  | Rejected => (exists s t, act_step S lw a s t) /\
      (bad_anywhere S lw a j p \/ (starts_assumed S lw a /\ bad_when_legitimate S lw a))
  | Deleted => (exists s t, act_step S lw a s t) /\ ~ bad_anywhere S lw a j p /\ ~ starts_assumed S lw a
  | Skipped => ~ exists s t, act_step S lw a s t
  end.
Lemma judge_means : verdict_means (judge S lw a).
Proof.
  unfold judge. cbv zeta. rewrite HM. cbn [snd].
  destruct (sat_ck ds X) eqn:B0; cbn [negb]; [|cbn; intros H; apply b_sat in H; congruence].
  assert (P0 : exists s t, act_step S lw a s t) by (apply b_sat; auto).
  destruct (subseteq_ck ds pcx (p_forbid p)) eqn:B1; [split; auto; left; left; apply b_forbid; auto|].
  assert (SX : sat_ck ds pcx = true).
  { destruct (local_not p pcx _ (p_forbid p) in_pcs pc_means) as (s & t & H1 & H2 & H3 & _); [cbn; auto|auto|].
    apply (means_sat p pcx _ in_pcs pc_means). exists s, t. auto. }
  assert (P1 : ~ forbidden S lw a j p) by (intros H; apply b_forbid in H; congruence).
  destruct (sat_ck ds (p_permit p) && _) eqn:B2; [split; auto; left; right; left; apply b_permit; auto|].
  assert (P2 : ~ not_permitted S lw a j p) by (intros H; apply b_permit in H; congruence).
  destruct (puppet_selfloop k v && _) eqn:B3; [split; auto; left; right; right; left; apply b_inert; auto|].
  assert (P3 : ~ inert (nth (p_kind p) (kinds N) pc0) v) by (intros H; apply b_inert in H; congruence).
  destruct (negb (subseteq_ck ds (img1_PFmla ds X (s_assume S)) _)) eqn:B4; [split; auto; left; right; right; right; apply b_leaves; auto|].
  assert (P4 : ~ leaves_assumption S lw a) by (intros H; apply b_leaves in H; congruence).
  assert (PA : ~ bad_anywhere S lw a j p) by (unfold bad_anywhere; tauto).
  destruct (overlap_ck ds (s_assume S) (pre_PFmla ds X)) eqn:B5; cbn [negb].
  2: { split; auto. split; auto. intros H. apply b_starts in H. congruence. }
  assert (P5 : starts_assumed S lw a) by (apply b_starts; auto).
  rewrite (b_image B0). cbn [negb].
  rewrite shadow_passes; auto.
  2: { destruct no_shadow_flags as (F1 & _). rewrite F1, andb_true_r in B3. auto. }
  unfold judge_direct. cbv zeta. rewrite (proj2 b_starts' P5).
  destruct (s_direct_scope S) eqn:DS.
  - destruct (negb (subseteq_ck ds (img1_PFmla ds X (hi_invariant S)) _)) eqn:B6.
    { split; auto. right. split; auto. split; auto. left. apply b_closure. auto. }
    assert (P6 : ~ breaks_closure S lw a) by (intros H; apply b_closure in H; congruence).
    destruct (s_future_closed S) eqn:FC; cbn [negb andb].
    { split; auto. split; auto. split; auto. intros (_ & [H|(H & _)]); [tauto|congruence]. }
    destruct (negb (subseteq_ck ds (and_PFmla X (hi_invariant S)) _)) eqn:B7.
    { split; auto. right. split; auto. split; auto. right. split; auto. apply b_spec. auto. }
    split; auto. split; auto. split; auto. intros (_ & [H|(_ & H)]); [tauto|]. apply b_spec in H. congruence.
  - split; auto. split; auto. split; auto. intros (H & _). congruence.
Qed.

(** What is true of the candidates of any system, with shadow variables or without. *)
Lemma judge_sound : judge S lw a = Kept ->
  (exists s t, act_step S lw a s t) /\ ~ forbidden S lw a j p /\ ~ not_permitted S lw a j p /\
  ~ leaves_assumption S lw a /\ starts_assumed S lw a /\ ~ bad_when_legitimate S lw a.
Proof.
  unfold judge. cbv zeta. rewrite HM. cbn [snd]. intros J.
  destruct (sat_ck ds X) eqn:B0; cbn [negb] in J; [|discriminate].
  destruct (subseteq_ck ds pcx (p_forbid p)) eqn:B1; [discriminate|].
  destruct (sat_ck ds (p_permit p) && _) eqn:B2; [discriminate|].
  destruct (puppet_selfloop k v && _); [discriminate|].
  destruct (negb (subseteq_ck ds (img1_PFmla ds X (s_assume S)) _)) eqn:B4; [discriminate|].
  destruct (overlap_ck ds (s_assume S) (pre_PFmla ds X)) eqn:B5; cbn [negb] in J; [|discriminate].
  destruct (negb (overlap_ck ds (smooth_puppet S _) _)); [discriminate|].
  destruct (judge_shadow S p k v pcx); try discriminate.
  split; [apply b_sat; auto|]. split; [rewrite <- b_forbid; congruence|]. split; [rewrite <- b_permit; congruence|].
  split; [rewrite <- b_leaves; congruence|]. split; [apply b_starts; auto|].
  unfold judge_direct in J. cbv zeta in J. intros (DS & BD). rewrite DS in J.
  destruct (negb (subseteq_ck ds (img1_PFmla ds X (hi_invariant S)) _)) eqn:B6; [discriminate|].
  destruct BD as [H|(FC & H)]; [apply b_closure in H; congruence|]. apply b_spec in H. rewrite FC, H in J. discriminate.
Qed.
End Verdict.
End Action.
End Cand.
