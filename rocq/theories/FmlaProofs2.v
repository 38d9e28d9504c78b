From Coq Require Import List Arith Bool Lia.
From Verif Require Import FinLib FmlaModel FmlaSpec FmlaProofs.
Import ListNotations.

Section P.
Variable ds : list nat.
Notation ok := (ok ds).
Notation n := (length ds).
Notation wf_ids := (wf_ids ds).

(** ** Boolean operations, at every valuation *)
Lemma eval_not : forall a e, eval (not_PFmla a) e = negb (eval a e).
Proof. intros [b|f] e; auto. Qed.
Lemma eval_and : forall a b e, eval (and_PFmla a b) e = eval a e && eval b e.
Proof. intros [[]|f] [[]|g] e; cbn; auto using andb_true_r, andb_false_r; rewrite ?andb_true_r, ?andb_false_r; auto. Qed.
Lemma eval_or : forall a b e, eval (or_PFmla a b) e = eval a e || eval b e.
Proof. intros [[]|f] [[]|g] e; cbn; rewrite ?orb_true_r, ?orb_false_r; auto. Qed.
Lemma eval_nimp : forall a b e, eval (nimp_PFmla a b) e = eval a e && negb (eval b e).
Proof. intros [[]|f] [[]|g] e; cbn; rewrite ?andb_true_r, ?andb_false_r; auto. Qed.
Lemma eval_xnor : forall a b e, eval (xnor_PFmla a b) e = eqb (eval a e) (eval b e).
Proof. intros [[]|f] [[]|g] e; cbn; auto; try destruct (f e); try destruct (g e); auto. Qed.
Lemma eval_xor : forall a b e, eval (xor_PFmla a b) e = xorb (eval a e) (eval b e).
Proof. intros [[]|f] [[]|g] e; cbn; auto; try destruct (f e); try destruct (g e); auto. Qed.

Lemma fold_or : forall {A} (h : A -> fmla) l r e,
  eval (fold_left (fun d x => or_PFmla d (h x)) l r) e = eval r e || existsb (fun x => eval (h x) e) l.
Proof.
  intros A h l; induction l as [|x l IH]; intros r e; cbn [fold_left existsb]; [rewrite orb_false_r; auto|].
  rewrite IH, eval_or, orb_assoc. auto.
Qed.
Lemma fold_and : forall {A} (h : A -> fmla) l r e,
  eval (fold_left (fun d x => and_PFmla d (h x)) l r) e = eval r e && forallb (fun x => eval (h x) e) l.
Proof.
  intros A h l; induction l as [|x l IH]; intros r e; cbn [fold_left forallb]; [rewrite andb_true_r; auto|].
  rewrite IH, eval_and, andb_assoc. auto.
Qed.

(** ** Checks *)
Notation every P := (forall a i p, ok a -> ok i -> ok p -> P (join a i p)).

Lemma taut_iff : forall f b, mdd_is_tautology ds f b = true <-> every (fun e => f e = b).
Proof.
  intros f b; unfold mdd_is_tautology. rewrite forall_assignments.
  split; intros H a i p A I P; specialize (H a i p A I P); cbv beta in *; [apply eqb_prop; auto|]. rewrite H; apply eqb_reflx.
Qed.

Notation inhabited := (inhabited ds).
Lemma zero_ok : inhabited -> ok (map (fun _ => 0) ds).
Proof. unfold FmlaSpec.inhabited, FmlaSpec.ok. intro H; induction H; cbn [map]; constructor; auto. Qed.

Lemma tautology_iff : inhabited -> forall g, tautology_ck ds g = true <-> every (fun e => eval g e = true).
Proof.
  intros INH [b|f]; cbn [tautology_ck eval]; [|apply taut_iff].
  split; [auto|]. intro H. pose proof (zero_ok INH). eapply H; eauto.
Qed.

Lemma some_assignment : forall (q : list nat -> bool), forallb q (assignments (mdd_doms ds)) = false ->
  exists a i p, ok a /\ ok i /\ ok p /\ q (join a i p) = false.
Proof.
  intros q H.
  destruct (existsb (fun e => negb (q e)) (assignments (mdd_doms ds))) eqn:E.
  - apply existsb_exists in E as (e & E & N). apply in_assignments, join_decomp in E as (a & i & p & A & I & P & ->).
    exists a, i, p. repeat split; auto. apply negb_true_iff; auto.
  - exfalso. rewrite <- not_true_iff_false in H. apply H, forallb_forall. intros e IN.
    destruct (q e) eqn:Q; auto. rewrite <- not_true_iff_false in E. exfalso; apply E, existsb_exists. exists e; rewrite Q; auto.
Qed.

Lemma sat_iff : inhabited -> forall g,
  sat_ck ds g = true <-> exists a i p, ok a /\ ok i /\ ok p /\ eval g (join a i p) = true.
Proof.
  intros INH [b|f]; cbn [sat_ck eval].
  - split; [|intros (? & ? & ? & ? & ? & ? & ?); auto]. intro H. pose proof (zero_ok INH). eauto 10.
  - rewrite negb_true_iff. split.
    + intro H. apply some_assignment in H as (a & i & p & A & I & P & Q). exists a, i, p. repeat split; auto.
      destruct (f _); auto; discriminate.
    + intros (a & i & p & A & I & P & Q). apply not_true_iff_false. rewrite taut_iff. intro H. rewrite H in Q; auto; discriminate.
Qed.

Lemma unsat_iff : inhabited -> forall g, sat_ck ds g = false <-> every (fun e => eval g e = false).
Proof.
  intros INH g. rewrite <- not_true_iff_false, sat_iff by auto. split.
  - intros H a i p A I P. apply not_true_iff_false; intro C; apply H; exists a, i, p; auto.
  - intros H (a & i & p & A & I & P & Q). rewrite H in Q; auto; discriminate.
Qed.

Lemma lequal_iff : forall f g pf pg, mdd_lequal ds f g pf pg = true <-> every (fun e => f e = pf -> g e = pg).
Proof.
  intros f g pf pg; unfold mdd_lequal. rewrite forall_assignments.
  split; intros H a i p A I P; specialize (H a i p A I P); cbv beta in *.
  - intro E. rewrite E, eqb_reflx in H. apply eqb_prop; auto.
  - destruct (eqb (f _) pf) eqn:E; auto. apply eqb_prop in E. rewrite (H E). cbn. apply eqb_reflx.
Qed.

Lemma subseteq_iff : inhabited -> forall a b,
  subseteq_ck ds a b = true <-> every (fun e => eval a e = true -> eval b e = true).
Proof.
  intros INH [[]|f] [[]|g]; cbn [subseteq_ck eval]; try (split; auto; intros; discriminate);
    try (rewrite <- (lequal_iff f g true true); tauto).
  - change (tautology_ck ds (Cst false) = true <-> every (fun _ => true = true -> false = true)).
    rewrite tautology_iff by auto. cbn [eval]. split; intros H a i p A I P; [intros; eapply H; eauto|eapply H; eauto].
  - change (tautology_ck ds (Mdd g)) with (mdd_is_tautology ds g true). rewrite taut_iff.
    split; intros H a i p A I P; [intros; eapply H; eauto|eapply H; eauto].
  - change (negb (sat_ck ds (Mdd f)) = true <-> every (fun e => f e = true -> false = true)). rewrite negb_true_iff, unsat_iff by auto. cbn [eval].
    split; intros H a i p A I P; [rewrite H; auto|apply not_true_iff_false; intro C; apply (H a i p A I P) in C; discriminate].
Qed.

Lemma equiv_iff : inhabited -> forall a b,
  equiv_ck ds a b = true <-> every (fun e => eval a e = eval b e).
Proof.
  intros INH a b.
  assert (T : forall g, tautology_ck ds g = true <-> every (fun e => true = eval g e)).
  { intro g. rewrite tautology_iff by auto. split; intros H x i p A I P; symmetry; eapply H; eauto. }
  assert (F : forall g, negb (sat_ck ds g) = true <-> every (fun e => false = eval g e)).
  { intro g. rewrite negb_true_iff, unsat_iff by auto. split; intros H x i p A I P; symmetry; eapply H; eauto. }
  assert (T' : forall g, tautology_ck ds g = true <-> every (fun e => eval g e = true)) by (intro; apply tautology_iff; auto).
  assert (F' : forall g, negb (sat_ck ds g) = true <-> every (fun e => eval g e = false)).
  { intro g. rewrite negb_true_iff. apply unsat_iff; auto. }
  destruct a as [[]|f].
  - exact (T b).
  - exact (F b).
  - destruct b as [[]|g]; [exact (T' (Mdd f))|exact (F' (Mdd f))|].
    cbn [equiv_ck eval]. unfold mdd_equal. rewrite forall_assignments.
    split; intros H a i p A I P; specialize (H a i p A I P); cbv beta in *; [apply eqb_prop; auto|]. rewrite H; apply eqb_reflx.
Qed.

Lemma overlap_iff : inhabited -> forall a b,
  overlap_ck ds a b = true <-> exists x i p, ok x /\ ok i /\ ok p /\ eval a (join x i p) = true /\ eval b (join x i p) = true.
Proof.
  intros INH a b. destruct a as [[]|f].
  - change (sat_ck ds b = true <-> exists x i p, ok x /\ ok i /\ ok p /\ true = true /\ eval b (join x i p) = true). rewrite sat_iff by auto.
    split; intros (x & i & p & H); exists x, i, p; tauto.
  - split; [discriminate|intros (x & i & p & H); cbn in H; intuition discriminate].
  - destruct b as [[]|g]; cbn [overlap_ck eval].
    + change (sat_ck ds (Mdd f) = true <-> exists x i p, ok x /\ ok i /\ ok p /\ f (join x i p) = true /\ true = true). rewrite sat_iff by auto. cbn [eval].
      split; intros (x & i & p & H); exists x, i, p; tauto.
    + split; [discriminate|intros (x & i & p & H); intuition discriminate].
    + rewrite negb_true_iff. split.
      * intro H. apply some_assignment in H as (x & i & p & A & I & P & Q). exists x, i, p.
        repeat split; auto; destruct (f _), (g _); auto; discriminate.
      * intros (x & i & p & A & I & P & Q & R). apply not_true_iff_false. rewrite lequal_iff. intro H.
        rewrite (H x i p A I P Q) in R. discriminate.
Qed.

(** ** Images *)
Lemma ev_pre : forall X a i p, ok a -> ok i -> ok p ->
  (eval (pre_PFmla ds X) (join a i p) = true <-> exists t, ok t /\ eval X (join a t p) = true).
Proof.
  intros [b|f] a i p A I P; cbn [pre_PFmla eval].
  - split; [eauto|intros (t & _ & H); auto].
  - unfold img_vbl_list. rewrite smooth_img by (auto; apply wf_all).
    split; [intros (t & T & _ & H); eauto|intros (t & T & H); exists t; split; [auto|split; [apply agree_all|auto]]].
Qed.

Lemma ev_img_as_img : forall X a i p, ok a -> ok i -> ok p ->
  (eval (img_as_img_PFmla ds X) (join a i p) = true <-> exists s, ok s /\ eval X (join a i s) = true).
Proof.
  intros [b|f] a i p A I P; cbn [img_as_img_PFmla eval].
  - split; [eauto|intros (t & _ & H); auto].
  - unfold pre_vbl_list. rewrite smooth_pre by (auto; apply wf_all).
    split; [intros (t & T & _ & H); eauto|intros (t & T & H); exists t; split; [auto|split; [apply agree_all|auto]]].
Qed.

Lemma ev_img : forall X a i p, ok a -> ok i -> ok p ->
  (eval (img_PFmla ds X) (join a i p) = true <-> exists s, ok s /\ eval X (join a p s) = true).
Proof.
  intros [b|f] a i p A I P; cbn [img_PFmla eval].
  - split; [eauto|intros (t & _ & H); auto].
  - unfold img_vbl_list, pre_vbl_list. rewrite (sub_img_pre ds) by (auto; apply wf_all). rewrite over_all by auto.
    rewrite smooth_pre by (auto; apply wf_all).
    split; [intros (t & T & _ & H); eauto|intros (t & T & H); exists t; split; [auto|split; [apply agree_all|auto]]].
Qed.

Lemma ev_pre1 : forall X Q a i p, ok a -> ok i -> ok p ->
  (X = Cst true -> (exists q, Q = Mdd q) -> exists t, ok t /\ eval Q (join a t t) = true) ->
  (eval (pre1_PFmla ds X Q) (join a i p) = true <->
   exists t, ok t /\ eval X (join a t p) = true /\ eval Q (join a t t) = true).
Proof.
  intros X Q a i p A I P NB. destruct Q as [[]|g].
  - assert (E : pre1_PFmla ds X (Cst true) = pre_PFmla ds X) by (destruct X as [[]|]; auto). rewrite E, ev_pre by auto.
    cbn [eval]. split; [intros (t & ? & ?)|intros (t & ? & ? & ?)]; eauto.
  - destruct X as [[]|]; cbn; split; (discriminate || intros (t & ? & ? & ?); discriminate).
  - destruct X as [[]|f]; cbn [pre1_PFmla eval].
    + split; auto. intros _. destruct NB as (t & T & H); eauto.
    + split; [discriminate|intros (t & ? & ? & ?); discriminate].
    + unfold mdd_and_smooth, img_vbl_list, pre_vbl_list. rewrite smooth_img by (auto; apply wf_all).
      split.
      * intros (t & T & _ & H). apply andb_true_iff in H as [H1 H2].
        rewrite (sub_pre_img ds), over_all in H2 by (auto; apply wf_all). eauto.
      * intros (t & T & H1 & H2). exists t. split; [auto|]. split; [apply agree_all|].
        rewrite H1. rewrite (sub_pre_img ds), over_all by (auto; apply wf_all). auto.
Qed.

Lemma ev_img1 : forall X Q a i p, ok a -> ok i -> ok p ->
  (X = Cst true -> (exists q, Q = Mdd q) -> exists s, ok s /\ eval Q (join a p s) = true) ->
  (eval (img1_PFmla ds X Q) (join a i p) = true <->
   exists s, ok s /\ eval X (join a p s) = true /\ eval Q (join a p s) = true).
Proof.
  intros X Q a i p A I P NB. destruct Q as [[]|g].
  - assert (E : img1_PFmla ds X (Cst true) = img_PFmla ds X) by (destruct X as [[]|]; auto). rewrite E, ev_img by auto.
    cbn [eval]. split; [intros (t & ? & ?)|intros (t & ? & ? & ?)]; eauto.
  - destruct X as [[]|]; cbn; split; (discriminate || intros (t & ? & ? & ?); discriminate).
  - destruct X as [[]|f]; cbn [img1_PFmla eval].
    + split; auto. intros _. destruct NB as (t & T & H); eauto.
    + split; [discriminate|intros (t & ? & ? & ?); discriminate].
    + unfold mdd_and_smooth, img_vbl_list, pre_vbl_list. rewrite (sub_img_pre ds) by (auto; apply wf_all). rewrite over_all by auto.
      rewrite smooth_pre by (auto; apply wf_all).
      split.
      * intros (t & T & _ & H). apply andb_true_iff in H as [H1 H2]. eauto.
      * intros (t & T & H1 & H2). exists t. split; [auto|]. split; [apply agree_all|]. rewrite H1, H2; auto.
Qed.

Lemma ev_as_img : forall P a i p, ok a -> ok i -> ok p ->
  eval (as_img_PFmla ds P) (join a i p) = eval P (join a i i).
Proof.
  intros [b|f] a i p A I P; cbn [as_img_PFmla eval]; auto.
  unfold img_vbl_list, pre_vbl_list. rewrite (sub_pre_img ds), over_all by (auto; apply wf_all). auto.
Qed.

Lemma ev_inverse : forall X a i p, ok a -> ok i -> ok p ->
  eval (inverse_PFmla ds X) (join a i p) = eval X (join p p i).
Proof.
  intros [b|f] a i p A I P; cbn [inverse_PFmla eval]; auto.
  unfold img_vbl_list, pre_vbl_list, aux_vbl_list.
  rewrite (sub_aux_pre ds), over_all by (auto; apply wf_all).
  rewrite (sub_pre_img ds), over_all by (auto; apply wf_all).
  rewrite (sub_img_aux ds), over_all by (auto; apply wf_all). auto.
Qed.

Lemma ev_dotjoin : forall X Y a i p, ok a -> ok i -> ok p -> trans_fmla ds X -> trans_fmla ds Y ->
  (eval (dotjoin_PFmla ds X Y) (join a i p) = true <->
   exists u, ok u /\ eval X (join a u p) = true /\ eval Y (join a i u) = true).
Proof.
  intros X Y a i p A I P TX TY. destruct Y as [[]|g].
  - assert (E : dotjoin_PFmla ds X (Cst true) = pre_PFmla ds X) by (destruct X as [[]|]; auto). rewrite E, ev_pre by auto.
    cbn [eval]. split; [intros (t & ? & ?)|intros (t & ? & ? & ?)]; eauto.
  - destruct X as [[]|]; cbn; split; (discriminate || intros (t & ? & ? & ?); discriminate).
  - destruct X as [[]|f].
    + change (dotjoin_PFmla ds (Cst true) (Mdd g)) with (img_as_img_PFmla ds (Mdd g)). rewrite ev_img_as_img by auto.
      cbn [eval]. split; [intros (t & ? & ?)|intros (t & ? & ? & ?)]; eauto.
    + cbn; split; [discriminate|intros (t & ? & ? & ?); discriminate].
    + cbn [dotjoin_PFmla eval]. unfold mdd_and_smooth, img_vbl_list, pre_vbl_list, aux_vbl_list.
      rewrite smooth_aux by (auto; apply wf_all). split.
      * intros (u & U & _ & H). apply andb_true_iff in H as [H1 H2].
        rewrite (sub_img_aux ds), over_all in H1 by (auto; apply wf_all).
        rewrite (sub_pre_aux ds), over_all in H2 by (auto; apply wf_all).
        exists u. split; auto. split; [apply (TX a u u p); auto|apply (TY a u i u); auto].
      * intros (u & U & H1 & H2). exists u. split; [auto|]. split; [apply agree_all|].
        rewrite (sub_img_aux ds), over_all by (auto; apply wf_all).
        rewrite (sub_pre_aux ds), over_all by (auto; apply wf_all).
        apply andb_true_iff. split; [apply (TX u a u p); auto|apply (TY u a i u); auto].
Qed.

(** ** With a list of written variables *)
Lemma ev_pre2 : forall X Q l a i p, ok a -> ok i -> ok p -> wf_ids l ->
  state_fmla ds Q -> (Q = Cst true -> writes_only ds l X) ->
  (eval (pre2_PFmla ds X Q l) (join a i p) = true <->
   exists t, ok t /\ (forall k, k < n -> ~ In k l -> nth k t 0 = nth k p 0) /\
     eval X (join a (over ds l t i) p) = true /\ eval Q (join t t t) = true).
Proof.
  intros X Q l a i p A I P W SQ WO. destruct Q as [[]|g].
  - assert (E : pre2_PFmla ds X (Cst true) l = pre_PFmla ds X) by (destruct X as [[]|]; auto). rewrite E, ev_pre by auto.
    cbn [eval]. specialize (WO eq_refl). split.
    + intros (t & T & H). exists (over ds l t p). split; [apply over_ok; auto|]. split; [intros; apply over_out; auto|].
      split; auto. refine (proj1 (WO a t _ p A T _ P _) H).
      * apply over_ok; auto; apply over_ok; auto.
      * intros k K. unfold FmlaSpec.wf_ids in W; rewrite Forall_forall in W. rewrite !over_in; auto.
    + intros (t & T & _ & H & _). exists (over ds l t i). split; [apply over_ok; auto|auto].
  - destruct X as [[]|]; cbn; split; (discriminate || intros (t & ? & ? & ? & ?); discriminate).
  - destruct X as [[]|f]; cbn [pre2_PFmla eval].
    + cbn [smooth_vbls copies eval]. rewrite smooth_pre by auto. split.
      * intros (t & T & O & H). exists t. repeat split; auto. apply (SQ a i t t t); auto.
      * intros (t & T & O & _ & H). exists t. split; [auto|]. split; [exact O|]. apply (SQ t t a i t); auto.
    + split; [discriminate|intros (t & ? & ? & ? & ?); discriminate].
    + unfold mdd_and_smooth. rewrite smooth_img by auto. split.
      * intros (t & T & O & H). apply andb_true_iff in H as [H1 H2]. rewrite (sub_pre_img ds) in H2 by auto.
        exists (over ds l t p). split; [apply over_ok; auto|]. split; [intros; apply over_out; auto|]. split.
        -- replace (over ds l (over ds l t p) i) with t; [auto|].
           apply list_ext_nth with (d := 0); [rewrite over_length; apply ok_length; auto|].
           intros k K. rewrite (ok_length _ _ T) in K. destruct (in_dec Nat.eq_dec k l).
           ++ rewrite !over_in; auto.
           ++ rewrite over_out by auto. apply O; auto.
        -- apply (SQ a t (over ds l t p) (over ds l t p) (over ds l t p)); auto using over_ok.
      * intros (t & T & O & H1 & H2). exists (over ds l t i). split; [apply over_ok; auto|].
        split; [apply over_agree|]. rewrite H1. cbn [andb]. rewrite (sub_pre_img ds) by auto using over_ok.
        replace (over ds l (over ds l t i) p) with t.
        -- apply (SQ t t a (over ds l t i) t); auto using over_ok.
        -- apply list_ext_nth with (d := 0); [rewrite over_length; apply ok_length; auto|].
           intros k K. rewrite (ok_length _ _ T) in K. destruct (in_dec Nat.eq_dec k l).
           ++ rewrite !over_in; auto.
           ++ rewrite over_out by auto. apply O; auto.
Qed.

Lemma ev_img2 : forall X Q l a i p, ok a -> ok i -> ok p -> wf_ids l -> Q <> Cst true ->
  state_fmla ds Q ->
  (eval (img2_PFmla ds X Q l) (join a i p) = true <->
   exists s, ok s /\ (forall k, k < n -> ~ In k l -> nth k s 0 = nth k p 0) /\
     eval X (join a (over ds l p i) s) = true /\ eval Q (join s s s) = true).
Proof.
  intros X Q l a i p A I P W NT SQ. destruct Q as [[]|g]; [congruence| |].
  - destruct X as [[]|]; cbn; split; (discriminate || intros (t & ? & ? & ? & ?); discriminate).
  - destruct X as [[]|f]; cbn [img2_PFmla eval].
    + cbn [smooth_vbls copies eval]. rewrite smooth_pre by auto. split.
      * intros (t & T & O & H). exists t. repeat split; auto. apply (SQ a i t t t); auto.
      * intros (t & T & O & _ & H). exists t. split; [auto|]. split; [exact O|]. apply (SQ t t a i t); auto.
    + split; [discriminate|intros (t & ? & ? & ? & ?); discriminate].
    + unfold mdd_and_smooth. rewrite (sub_img_pre ds) by auto. rewrite smooth_pre by auto using over_ok. split.
      * intros (t & T & O & H). apply andb_true_iff in H as [H1 H2].
        exists t. repeat split; auto. apply (SQ a (over ds l p i) t t t); auto using over_ok.
      * intros (t & T & O & H1 & H2). exists t. split; [auto|]. split; [exact O|].
        rewrite H1. apply (SQ t t a (over ds l p i) t); auto using over_ok.
Qed.

End P.
