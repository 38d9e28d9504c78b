From Coq Require Import List Arith Bool Lia.
From Verif Require Import FinLib FmlaModel FmlaSpec FmlaProofs FmlaProofs2 FmlaProofs3.
Import ListNotations.

Section P.
Variable ds : list nat.
Notation ok := (ok ds).
Notation n := (length ds).
Notation every P := (forall a i p, ok a -> ok i -> ok p -> P (join a i p)).

Lemma same_eval : forall g h, same ds g h <-> every (fun e => eval g e = eval h e).
Proof.
  intros g h; unfold same, meaning; split; intros H a i p A I P; specialize (H a i p A I P); cbv beta in *.
  - destruct (eval g _), (eval h _); intuition congruence.
  - rewrite H; tauto.
Qed.

Lemma iff_eqb : forall x y : bool, (x = true <-> y = true) -> x = y.
Proof. intros [] []; intuition congruence. Qed.

Lemma state_eval : forall g, state_fmla ds g -> forall a i p, ok a -> ok i -> ok p -> eval g (join a i p) = eval g (join p p p).
Proof. intros g S a i p A I P. apply iff_eqb. apply (S a i p p p); auto. Qed.
Lemma trans_eval : forall g, trans_fmla ds g -> forall a i p, ok a -> ok i -> ok p -> eval g (join a i p) = eval g (join p i p).
Proof. intros g S a i p A I P. apply iff_eqb. apply (S a p i p); auto. Qed.

(** State and transition formulas are closed under the operations. *)
Lemma state_trans : forall g, state_fmla ds g -> trans_fmla ds g.
Proof. intros g H a a' i p A A' I P. apply (H a i a' i p); auto. Qed.
Lemma state_of_eval : forall g, (forall a i p, ok a -> ok i -> ok p -> eval g (join a i p) = eval g (join p p p)) -> state_fmla ds g.
Proof. intros g H a i a' i' p A I A' I' P. unfold meaning. rewrite (H a i p), (H a' i' p); auto. tauto. Qed.
Lemma trans_of_eval : forall g, (forall a i p, ok a -> ok i -> ok p -> eval g (join a i p) = eval g (join p i p)) -> trans_fmla ds g.
Proof. intros g H a a' i p A A' I P. unfold meaning. rewrite (H a i p), (H a' i p); auto. tauto. Qed.

(** ** Relational operations on states *)
Lemma pre_state : forall X s, ok s -> trans_fmla ds X ->
  (holds (pre_PFmla ds X) s <-> exists t, ok t /\ steps X s t).
Proof. intros X s S T. unfold holds, steps, meaning. rewrite ev_pre by auto. tauto. Qed.

Lemma img_state : forall X t, ok t -> trans_fmla ds X ->
  (holds (img_PFmla ds X) t <-> exists s, ok s /\ steps X s t).
Proof.
  intros X t S T. unfold holds, steps, meaning. rewrite ev_img by auto.
  split; intros (s & O & H); exists s; split; auto; [apply (T t s t s)|apply (T s t t s)]; auto.
Qed.

Lemma pre_is_state : forall X, trans_fmla ds X -> state_fmla ds (pre_PFmla ds X).
Proof.
  intros X T a i a' i' p A I A' I' P. unfold meaning. rewrite !ev_pre by auto.
  split; intros (t & O & H); exists t; split; auto; [apply (T a a' t p)|apply (T a' a t p)]; auto.
Qed.
Lemma img_is_state : forall X, trans_fmla ds X -> state_fmla ds (img_PFmla ds X).
Proof.
  intros X T a i a' i' p A I A' I' P. unfold meaning. rewrite !ev_img by auto.
  split; intros (t & O & H); exists t; split; auto; [apply (T a a' p t)|apply (T a' a p t)]; auto.
Qed.

Notation const_true_on_empty := (const_true_on_empty ds).
Lemma not_empty_some : forall X Q, state_fmla ds Q -> ~ const_true_on_empty X Q ->
  X = Cst true -> (exists q, Q = Mdd q) -> exists t, ok t /\ holds Q t.
Proof.
  intros X Q SQ N E M.
  destruct (existsb (fun s => eval Q (join s s s)) (assignments ds)) eqn:B.
  - apply existsb_exists in B as (s & S & H). apply in_assignments in S. exists s; split; auto.
  - exfalso; apply N. split; auto. split; auto. intros s S H.
    rewrite <- not_true_iff_false in B. apply B, existsb_exists. exists s. split; [apply in_assignments; auto|exact H].
Qed.

Lemma pre1_state : forall X Q s, ok s -> trans_fmla ds X -> state_fmla ds Q -> ~ const_true_on_empty X Q ->
  (holds (pre1_PFmla ds X Q) s <-> exists t, ok t /\ steps X s t /\ holds Q t).
Proof.
  intros X Q s S TX SQ N. unfold holds, steps, meaning. rewrite ev_pre1; auto.
  - split; intros (t & T & H1 & H2); exists t; (split; [auto|]); (split; [auto|]).
    + rewrite <- (state_eval Q SQ s t t); auto.
    + rewrite (state_eval Q SQ s t t); auto.
  - intros E M. destruct (not_empty_some X Q SQ N E M) as (t & T & H). exists t; split; auto.
    rewrite (state_eval Q SQ s t t); auto.
Qed.
Lemma img1_state : forall X Q t, ok t -> trans_fmla ds X -> state_fmla ds Q -> ~ const_true_on_empty X Q ->
  (holds (img1_PFmla ds X Q) t <-> exists s, ok s /\ steps X s t /\ holds Q s).
Proof.
  intros X Q s S TX SQ N. unfold holds, steps, meaning. rewrite ev_img1; auto.
  - split; intros (t & T & H1 & H2); exists t; (split; [auto|]).
    + rewrite <- (trans_eval X TX s s t), <- (state_eval Q SQ s s t); auto.
    + rewrite (trans_eval X TX s s t), (state_eval Q SQ s s t); auto.
  - intros E M. destruct (not_empty_some X Q SQ N E M) as (t & T & H). exists t; split; auto.
    rewrite (state_eval Q SQ s s t); auto.
Qed.

Lemma dotjoin_state : forall X Y s t, ok s -> ok t -> trans_fmla ds X -> trans_fmla ds Y ->
  (steps (dotjoin_PFmla ds X Y) s t <-> exists u, ok u /\ steps X s u /\ steps Y u t).
Proof.
  intros X Y s t S T TX TY. unfold steps, meaning. rewrite ev_dotjoin by auto.
  split; intros (u & U & H1 & H2); exists u; (split; [auto|]); (split; [auto|]).
  - rewrite <- (trans_eval Y TY s t u); auto.
  - rewrite (trans_eval Y TY s t u); auto.
Qed.
Lemma inverse_state : forall X s t, ok s -> ok t -> trans_fmla ds X ->
  (steps (inverse_PFmla ds X) s t <-> steps X t s).
Proof.
  intros X s t S T TX. unfold steps, meaning. rewrite ev_inverse by auto.
  rewrite (trans_eval X TX s s t); auto. tauto.
Qed.
Lemma as_img_state : forall P s t, ok s -> ok t -> state_fmla ds P ->
  (steps (as_img_PFmla ds P) s t <-> holds P t).
Proof.
  intros P s t S T SP. unfold steps, holds, meaning. rewrite ev_as_img by auto. rewrite (state_eval P SP s t t); auto. tauto.
Qed.
Lemma cross_state : forall P Q s t, ok s -> ok t -> state_fmla ds P -> state_fmla ds Q ->
  (steps (cross_PFmla ds P Q) s t <-> holds P s /\ holds Q t).
Proof.
  intros P Q s t S T SP SQ. unfold cross_PFmla. rewrite <- (as_img_state Q s t) by auto.
  unfold steps, holds, meaning. rewrite eval_and, andb_true_iff. rewrite (state_eval P SP s t s); auto. tauto.
Qed.

(** ** Renaming *)
Lemma subst1_eval : forall X l (to_img : bool) a i p q, wf_ids ds l -> ok a -> ok i -> ok p -> ok q ->
  (let old := if to_img then p else i in
   let new := if to_img then i else p in
   (forall k, In k l -> nth k q 0 = nth k new 0) /\ agree_off ds l q old) ->
  eval (subst1_vbls X l to_img) (join a i p) = if to_img then eval X (join a i q) else eval X (join a q p).
Proof.
  intros [b|f] l to_img a i p q W A I P Q [H1 H2]; cbn [subst1_vbls eval]; [destruct to_img; auto|].
  destruct to_img.
  - rewrite (sub_pre_img ds) by auto. replace q with (over ds l i p); auto.
    apply list_ext_nth with (d := 0); [rewrite over_length, (ok_length ds q Q); auto|].
    intros k K. rewrite over_length in K. destruct (in_dec Nat.eq_dec k l); [rewrite over_in, H1|rewrite over_out, H2]; auto.
  - rewrite (sub_img_pre ds) by auto. replace q with (over ds l p i); auto.
    apply list_ext_nth with (d := 0); [rewrite over_length, (ok_length ds q Q); auto|].
    intros k K. rewrite over_length in K. destruct (in_dec Nat.eq_dec k l); [rewrite over_in, H1|rewrite over_out, H2]; auto.
Qed.

Lemma lookup_copies : forall olds news k r, r < 3 ->
  lookup (copies AllCopies olds) (copies AllCopies news) (3 * k + r) = 3 * lookup olds news k + r.
Proof.
  unfold copies. induction olds as [|o olds IH]; intros news k r R; [cbn [flat_map lookup]; lia|].
  destruct news as [|v news]; [cbn [flat_map lookup app]; lia|].
  cbn [flat_map app lookup]. unfold aux_id, img_id, pre_id in *.
  destruct (Nat.eqb_spec k o) as [->|N].
  - destruct r as [|[|[|r]]]; try lia.
    + rewrite Nat.add_0_r, Nat.eqb_refl. lia.
    + replace (3 * o + 1 =? 3 * o) with false by (symmetry; apply Nat.eqb_neq; lia). rewrite Nat.eqb_refl. lia.
    + replace (3 * o + 2 =? 3 * o) with false by (symmetry; apply Nat.eqb_neq; lia).
      replace (3 * o + 2 =? 3 * o + 1) with false by (symmetry; apply Nat.eqb_neq; lia). rewrite Nat.eqb_refl. lia.
  - replace (3 * k + r =? 3 * o) with false by (symmetry; apply Nat.eqb_neq; lia).
    replace (3 * k + r =? 3 * o + 1) with false by (symmetry; apply Nat.eqb_neq; lia).
    replace (3 * k + r =? 3 * o + 2) with false by (symmetry; apply Nat.eqb_neq; lia). apply IH; auto.
Qed.

Lemma lookup_nth : forall olds news j, NoDup olds -> length news = length olds -> j < length olds ->
  lookup olds news (nth j olds 0) = nth j news 0.
Proof.
  induction olds as [|o olds IH]; intros [|v news] j ND L J; cbn [length] in *; try lia. inversion ND; subst.
  destruct j; cbn [nth lookup]; [rewrite Nat.eqb_refl; auto|].
  destruct (Nat.eqb_spec (nth j olds 0) o) as [e|ne]; [exfalso; apply H1; rewrite <- e; apply nth_In; lia|].
  apply IH; auto; lia.
Qed.
Lemma lookup_notin : forall olds news k, ~ In k olds -> lookup olds news k = k.
Proof.
  induction olds as [|o olds IH]; intros news k N; cbn [lookup]; auto. destruct news; auto.
  destruct (Nat.eqb_spec k o) as [->|ne]; [exfalso; apply N; left; auto|]. apply IH. intro C; apply N; right; auto.
Qed.

Lemma renamed_nth : forall news olds s s' k, NoDup olds -> length news = length olds -> renamed ds news olds s s' -> k < n ->
  nth k s' 0 = nth (lookup olds news k) s 0.
Proof.
  intros news olds s s' k ND L [R1 R2] K. destruct (in_dec Nat.eq_dec k olds) as [I|I].
  - apply In_nth with (d := 0) in I as (j & J & <-). rewrite lookup_nth by auto. apply R1; auto.
  - rewrite lookup_notin by auto. apply R2; auto.
Qed.

Lemma subst_eval : forall X news olds a i p a' i' p', NoDup olds -> length news = length olds ->
  wf_ids ds news -> ok a -> ok i -> ok p -> ok a' -> ok i' -> ok p' ->
  renamed ds news olds a a' -> renamed ds news olds i i' -> renamed ds news olds p p' ->
  eval (subst_vbls X news olds) (join a i p) = eval X (join a' i' p').
Proof.
  intros [b|f] news olds a i p a' i' p' ND L W A I P A' I' P' RA RI RP; cbn [subst_vbls eval]; auto.
  unfold mdd_substitute. f_equal. set (e := map _ _).
  pose proof (ok_length _ _ A). pose proof (ok_length _ _ I). pose proof (ok_length _ _ P).
  assert (EN : forall k r, k < n -> r < 3 -> nth (3 * k + r) e 0 = nth (3 * lookup olds news k + r) (join a i p) 0).
  { intros k r K R. unfold e. rewrite join_length by lia. set (g := fun x => _).
    rewrite nth_indep with (d' := g 0) by (rewrite map_length, seq_length; lia).
    rewrite map_nth with (f := g), seq_nth by lia. unfold g. cbn [Nat.add]. rewrite lookup_copies by auto. auto. }
  apply (join_ext ds); auto.
  - unfold e. rewrite map_length, seq_length, join_length; lia.
  - intros k K. destruct (nth_join a i p (lookup olds news k)) as (J0 & J1 & J2); try lia.
    rewrite (renamed_nth news olds a a'), (renamed_nth news olds i i'), (renamed_nth news olds p p') by auto.
    pose proof (EN k 0 K ltac:(lia)) as E0. rewrite !Nat.add_0_r in E0. rewrite E0, (EN k 1), (EN k 2) by (auto; lia). auto.
Qed.

(** ** Per-process formulas *)
Notation proc_ok := (proc_ok ds).
Notation proc_step := (proc_step ds).
Lemma agree_sym : forall l s t, agree_off ds l s t -> agree_off ds l t s.
Proof. intros l s t H k K N; symmetry; auto. Qed.

Lemma proc_masked : forall p s t, proc_ok p -> ok s -> ok t ->
  (steps (and_PFmla (xn p) (mask p)) s t <-> proc_step p s t).
Proof.
  intros p s t (W & TX & WO & MK) S T. unfold FmlaSpec.proc_step, steps, meaning. rewrite eval_and, andb_true_iff.
  specialize (MK s t s S T S). unfold meaning in MK. rewrite MK. tauto.
Qed.

Lemma xfmla_state : inhabited ds -> forall ps s t, Forall proc_ok ps -> ok s -> ok t ->
  (steps (xfmla ds ps) s t <-> exists p, In p ps /\ proc_step p s t).
Proof.
  intros INH ps s t F S T. unfold steps, meaning, xfmla.
  assert (G : forall ps r, Forall proc_ok ps -> (eval (fold_left (fun ret p => if sat_ck ds (xn p) then or_PFmla ret (and_PFmla (xn p) (mask p)) else ret) ps r) (join s t s) = true <->
     eval r (join s t s) = true \/ exists p, In p ps /\ proc_step p s t)).
  { clear ps F. induction ps as [|p ps IH]; intros r F; cbn [fold_left].
    - split; [auto|intros [H|(p & [] & _)]; auto].
    - inversion F; subst. rewrite IH by auto.
      assert (E : eval (if sat_ck ds (xn p) then or_PFmla r (and_PFmla (xn p) (mask p)) else r) (join s t s) = true <->
                  eval r (join s t s) = true \/ proc_step p s t).
      { destruct (sat_ck ds (xn p)) eqn:SAT.
        - rewrite eval_or, orb_true_iff. rewrite <- (proc_masked p s t) by auto. unfold steps, meaning. tauto.
        - split; [auto|]. intros [H'|[H' _]]; auto. exfalso.
          rewrite unsat_iff in SAT by auto. unfold steps, meaning in H'. rewrite SAT in H' by auto. discriminate. }
      rewrite E. split.
      + intros [[H'|H']|(q & Q & H')]; [auto|right; exists p; split; [left|]; auto|right; exists q; split; [right|]; auto].
      + intros [H'|(q & [->|Q] & H')]; [auto|auto|right; exists q; auto]. }
  rewrite G by auto. cbn [eval]. split; [intros [H|H]; [discriminate|auto]|auto].
Qed.

Lemma over_self : forall l s, ok s -> over ds l s s = s.
Proof.
  intros l s S. apply agree_over; auto. intros k K N; auto.
Qed.

Lemma xpre1_state : forall ps Q s, Forall proc_ok ps -> ok s -> state_fmla ds Q ->
  (holds (xpre1 ds ps Q) s <-> exists p t, In p ps /\ ok t /\ proc_step p s t /\ holds Q t).
Proof.
  intros ps Q s F S SQ. unfold holds, meaning, xpre1. rewrite fold_or. cbn [eval orb]. rewrite existsb_exists.
  rewrite Forall_forall in F.
  split.
  - intros (p & IN & H). destruct (F p IN) as (W & TX & WO & MK). rewrite ev_pre2 in H by auto.
    destruct H as (t & T & O & H1 & H2). exists p, t. do 2 (split; [auto|]). split; [|auto].
    split; [|intros k K N; symmetry; auto]. unfold steps, meaning.
    rewrite (agree_over ds (wvbls p) t s) in H1; auto.
  - intros (p & t & IN & T & (H1 & A) & H2). exists p. split; auto. destruct (F p IN) as (W & TX & WO & MK).
    rewrite ev_pre2 by auto. exists t. split; [auto|]. split; [intros; symmetry; auto|].
    split; [|auto]. rewrite (agree_over ds (wvbls p) t s); auto using agree_sym.
Qed.

Lemma xpre_state : forall ps s, Forall proc_ok ps -> ok s ->
  (holds (xpre ds ps) s <-> exists p t, In p ps /\ ok t /\ proc_step p s t).
Proof.
  intros ps s F S. unfold holds, meaning, xpre. rewrite fold_or. cbn [eval orb]. rewrite existsb_exists.
  rewrite Forall_forall in F. split.
  - intros (p & IN & H). destruct (F p IN) as (W & TX & WO & MK). rewrite ev_pre in H by auto. destruct H as (t & T & H).
    exists p, (over ds (wvbls p) t s). split; [auto|]. split; [auto using over_ok|]. split.
    + unfold steps, meaning. refine (proj1 (WO s t _ s S T _ S _) H); auto using over_ok.
      intros k K. unfold FmlaSpec.wf_ids in W; rewrite Forall_forall in W. rewrite over_in; auto.
    + apply agree_sym, over_agree.
  - intros (p & t & IN & T & H & A). exists p. split; auto. rewrite ev_pre by auto. eauto.
Qed.

Lemma ximg1_state : forall ps Q t, Forall proc_ok ps -> ok t -> state_fmla ds Q -> Q <> Cst true ->
  (holds (ximg1 ds ps Q) t <-> exists p s, In p ps /\ ok s /\ proc_step p s t /\ holds Q s).
Proof.
  intros ps Q t F T SQ NT. unfold holds, meaning, ximg1. rewrite fold_or. cbn [eval orb]. rewrite existsb_exists.
  rewrite Forall_forall in F. split.
  - intros (p & IN & H). destruct (F p IN) as (W & TX & WO & MK). rewrite ev_img2 in H by auto.
    destruct H as (s & S & O & H1 & H2). exists p, s. do 2 (split; [auto|]). split; [|auto].
    split; [|intros k K N; auto]. unfold steps, meaning.
    rewrite over_self in H1 by auto. rewrite <- (trans_eval (xn p) TX t t s); auto.
  - intros (p & s & IN & S & (H1 & A) & H2). exists p. split; auto. destruct (F p IN) as (W & TX & WO & MK).
    rewrite ev_img2 by auto. exists s. split; [auto|]. split; [intros; auto|].
    split; [|auto]. rewrite over_self by auto. rewrite (trans_eval (xn p) TX t t s); auto.
Qed.

Lemma ximg_over : forall ps t, Forall proc_ok ps -> ok t ->
  (holds (ximg ds ps) t <-> exists p s, In p ps /\ ok s /\ steps (xn p) s t).
Proof.
  intros ps t F T. unfold holds, meaning, ximg. rewrite fold_or. cbn [eval orb]. rewrite existsb_exists.
  rewrite Forall_forall in F. split.
  - intros (p & IN & H). destruct (F p IN) as (W & TX & WO & MK). apply (img_state (xn p) t T TX) in H as (s & S & H); eauto.
  - intros (p & s & IN & S & H). exists p; split; auto. destruct (F p IN) as (W & TX & WO & MK).
    apply (img_state (xn p) t T TX). eauto.
Qed.

Lemma self_disable_state : forall p s t, proc_ok p -> ok s -> ok t ->
  (proc_step (self_disable ds p) s t <->
   proc_step p s t /\ ~ exists r, ok r /\ proc_step p r s).
Proof.
  intros p s t OKP S T. assert (OKP' := OKP). destruct OKP as (W & TX & WO & MK).
  unfold self_disable. set (I := img_PFmla ds _). unfold FmlaSpec.proc_step; cbn [xn wvbls].
  assert (TM : trans_fmla ds (and_PFmla (xn p) (mask p))).
  { apply trans_of_eval. intros a i q A J P. rewrite !eval_and.
    rewrite (trans_eval _ TX) by auto. f_equal. apply iff_eqb.
    fold (meaning (mask p) a i q). fold (meaning (mask p) q i q).
    rewrite (MK a i q), (MK q i q) by auto. tauto. }
  assert (HI : eval I (join s t s) = true <-> exists r, ok r /\ proc_step p r s).
  { rewrite (state_eval I (img_is_state _ TM)) by auto. fold (meaning I s s s). fold (holds I s). unfold I.
    rewrite img_state by auto. split; intros (r & R & H); exists r; split; auto; apply (proc_masked p r s); auto. }
  unfold steps at 1, meaning. rewrite eval_nimp, andb_true_iff, negb_true_iff, <- not_true_iff_false, HI.
  unfold FmlaSpec.proc_step, steps, meaning. tauto.
Qed.

End P.
