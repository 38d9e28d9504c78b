(** The formulas of a class of actions: what lists of formulas, one per process, denote. *)
From Coq Require Import List Arith Bool Lia.
From Verif Require Import FinLib Radix FmlaModel FmlaSpec FmlaProofs FmlaProofs2 FmlaProofs3 FmlaProofs4 FmlaProps
  ActModel ActSpec ActProofs ActProofs2 ActProofs4 ActProps NetModel NetSpec NetProofs NetProofs2.
Import ListNotations.

Section Net.
Variable N : network.
Notation ds := (vdoms N).
Notation ok := (ok (vdoms N)).
Hypothesis HN : net_ok N.

Notation rel := (process -> list nat -> list nat -> Prop).
Definition means (p : process) (x : fmla) (R : list nat -> list nat -> Prop) : Prop :=
  proc_ok ds (proc_of N p x) /\ forall s t, ok s -> ok t -> (proc_step ds (proc_of N p x) s t <-> R s t).
Definition denotes (xs : list fmla) (R : rel) : Prop := Forall2 (fun p x => means p x (R p)) (pcs N) xs.

Definition disabled (R : rel) : rel := fun p s t => R p s t /\ ~ exists r, ok r /\ R p r s.
Definition move (a : nat) : rel := fun p s t =>
  p_kind p = act_pc (act_of (kinds N) a) /\ local_move N p (vals (act_of (kinds N) a)) s t.

Lemma means_ext : forall p x R R', means p x R -> (forall s t, ok s -> ok t -> (R s t <-> R' s t)) -> means p x R'.
Proof. intros p x R R' (H1 & H2) E. split; auto. intros s t S T. rewrite H2, E by auto. tauto. Qed.

Lemma means_false : forall p, In p (pcs N) -> means p (Cst false) (fun _ _ => False).
Proof.
  intros p Hp. split.
  - split; [apply wf_written; auto|]. cbn [xn proc_of wvbls mask]. split; [|split].
    + intros a a' i q _ _ _ _. unfold meaning. cbn. tauto.
    + intros a i i' q _ _ _ _ _. unfold meaning. cbn. tauto.
    + intros a i q A I Q. apply mask_meaning; auto. apply wf_written; auto.
  - intros s t S T. unfold proc_step, steps, meaning. cbn. split; [intros (H & _); discriminate|tauto].
Qed.

Lemma means_or : forall p x y R Q, means p x R -> means p y Q -> means p (or_PFmla x y) (fun s t => R s t \/ Q s t).
Proof.
  intros p x y R Q ((W & T1 & W1 & M) & E1) ((_ & T2 & W2 & _) & E2). cbn [xn proc_of wvbls mask] in *. split.
  - split; [auto|]. cbn [xn proc_of wvbls mask]. split; [|split; auto].
    + intros a a' i q A A' I Q'. unfold meaning in *. rewrite !eval_or, !orb_true_iff.
      rewrite (T1 a a' i q), (T2 a a' i q) by auto. tauto.
    + intros a i i' q A I I' Q' E. unfold meaning in *. rewrite !eval_or, !orb_true_iff.
      rewrite (W1 a i i' q), (W2 a i i' q) by auto. tauto.
  - intros s t S T. rewrite <- E1, <- E2 by auto. unfold proc_step, steps, meaning. cbn [xn proc_of wvbls].
    rewrite eval_or, orb_true_iff. tauto.
Qed.

Lemma means_disable : forall p x R, means p x R ->
  means p (xn (self_disable ds (proc_of N p x))) (fun s t => R s t /\ ~ exists r, ok r /\ R r s).
Proof.
  intros p x R (P & E).
  assert (ES : proc_of N p (xn (self_disable ds (proc_of N p x))) = self_disable ds (proc_of N p x)) by reflexivity.
  split.
  - destruct P as (W & TX & WO & MK). rewrite ES. unfold self_disable. split; [exact W|]. cbn [xn wvbls mask].
    set (I := img_PFmla ds _).
    assert (SI : state_fmla ds I).
    { apply img_is_state. apply trans_of_eval. intros a i q A J P. rewrite !eval_and.
      rewrite (trans_eval _ _ TX) by auto. f_equal. apply iff_eqb.
      fold (meaning (mask (proc_of N p x)) a i q). fold (meaning (mask (proc_of N p x)) q i q).
      rewrite (MK a i q), (MK q i q) by auto. tauto. }
    split; [|split; [|exact MK]].
    + intros a a' i q A A' J Q. unfold meaning. rewrite !eval_nimp, !andb_true_iff.
      rewrite (state_eval ds I SI a i q), (state_eval ds I SI a' i q) by auto.
      specialize (TX a a' i q A A' J Q). unfold meaning in TX. rewrite TX. tauto.
    + intros a i i' q A J J' Q EQ. unfold meaning. rewrite !eval_nimp, !andb_true_iff.
      rewrite (state_eval ds I SI a i q), (state_eval ds I SI a i' q) by auto.
      specialize (WO a i i' q A J J' Q EQ). unfold meaning in WO. rewrite WO. tauto.
  - intros s t S T. rewrite ES, self_disable_state by auto. rewrite E by auto. split; intros (H1 & H2); split; auto.
    + intros (r & O & H). apply H2. exists r. split; auto. apply E; auto.
    + intros (r & O & H). apply H2. exists r. split; auto. apply E; auto.
Qed.

Lemma Forall2_map_r : forall A B (P : A -> B -> Prop) (f : A -> B) l, (forall x, In x l -> P x (f x)) -> Forall2 P l (map f l).
Proof. induction l; cbn; intros H; constructor; auto. Qed.

Lemma Forall2_in : forall A B (P Q : A -> B -> Prop) l l', Forall2 P l l' -> (forall x y, In x l -> P x y -> Q x y) -> Forall2 Q l l'.
Proof.
  intros A B P Q l l' H. induction H; intros E; constructor.
  - apply E; cbn; auto.
  - apply IHForall2. intros; apply E; cbn; auto.
Qed.

Lemma denotes_ext : forall xs R R', denotes xs R -> (forall p s t, In p (pcs N) -> ok s -> ok t -> (R p s t <-> R' p s t)) -> denotes xs R'.
Proof.
  intros xs R R' H E. apply (Forall2_in _ _ _ _ _ _ H). intros p x Hp M. apply (means_ext _ _ _ _ M). auto.
Qed.

Lemma denotes_none : denotes (no_xn N) (fun _ _ _ => False).
Proof. apply Forall2_map_r. intros p Hp. apply means_false; auto. Qed.

Lemma denotes_or : forall xs ys R Q, denotes xs R -> denotes ys Q -> denotes (or_all xs ys) (fun p s t => R p s t \/ Q p s t).
Proof.
  unfold denotes, or_all. intros xs ys R Q H. revert ys. induction H as [|p x ps xs H HF IH]; intros ys H2; inversion H2; subst; cbn; constructor.
  - apply means_or; auto.
  - apply IH; auto.
Qed.

Lemma denotes_disable : forall xs R, denotes xs R -> denotes (self_disable_all N xs) (disabled R).
Proof.
  unfold denotes, self_disable_all, procs_of. intros xs R H.
  induction H as [|p x ps xs H HF IH]; cbn; constructor; auto. apply means_disable; auto.
Qed.

Lemma in_pcs_kind : forall p, In p (pcs N) -> In (kind_of N p) (kinds N).
Proof. intros p Hp. apply nth_In. apply (no_kind _ HN p Hp). Qed.

Lemma denotes_action : forall a, a < actions_in (kinds N) -> denotes (make_action_xfmlae N a) (move a).
Proof.
  intros a Ha. unfold make_action_xfmlae. cbv zeta. apply Forall2_map_r. intros p Hp.
  destruct (C39_decode (kinds N) a Ha) as (_ & V & _). unfold move.
  destruct (Nat.eqb_spec (p_kind p) (act_pc (act_of (kinds N) a))) as [E|NE].
  - rewrite <- E in V. fold (kind_of N p) in V. apply (means_ext _ _ (fun s t => False \/ local_move N p (vals (act_of (kinds N) a)) s t)).
    + apply means_or; [apply means_false; auto|]. split; [apply pc_proc_ok; auto|]. intros s t S T. apply pc_step_move; auto.
    + intros s t S T. tauto.
  - apply (means_ext _ _ (fun _ _ => False)); [apply means_false; auto|]. intros s t S T. tauto.
Qed.

Lemma denotes_fold : forall l xs R, denotes xs R -> (forall r, In r l -> r < actions_in (kinds N)) ->
  denotes (fold_left (fun x r => or_all x (make_action_xfmlae N r)) l xs) (fun p s t => R p s t \/ exists r, In r l /\ move r p s t).
Proof.
  induction l as [|r l IH]; intros xs R H L; cbn [fold_left].
  - apply (denotes_ext _ _ _ H). intros p s t Hp S T. split; auto. intros [X|(r & [] & _)]; auto.
  - refine (denotes_ext _ _ _ (IH _ _ (denotes_or _ _ _ _ H (denotes_action r _)) _) _).
    + apply L; cbn; auto.
    + intros q Hq. apply L; cbn; auto.
    + intros p s t Hp S T. cbn. split.
      * intros [[X|X]|(q & Hq & X)]; eauto.
      * intros [X|(q & [<-|Hq] & X)]; eauto.
Qed.

Lemma denotes_union : forall xs R, denotes xs R -> forall s t, ok s -> ok t ->
  (steps (xfmla ds (procs_of N xs)) s t <-> exists p, In p (pcs N) /\ R p s t).
Proof.
  intros xs R H s t S T. unfold denotes in H.
  assert (F : forall ps xs, Forall2 (fun p x => means p x (R p)) ps xs ->
     Forall (proc_ok ds) (map (fun px => proc_of N (fst px) (snd px)) (combine ps xs)) /\
     ((exists q, In q (map (fun px => proc_of N (fst px) (snd px)) (combine ps xs)) /\ proc_step ds q s t) <->
      exists p, In p ps /\ R p s t)).
  { clear H xs. intros ps xs H. induction H as [|p x ps xs H HF (IH1 & IH2)]; cbn.
    - split; [constructor|]. split; intros (q & [] & _).
    - destruct H as (H1 & H2). split; [constructor; auto|]. split.
      + intros (q & [<-|Hq] & X).
        * exists p. split; auto. apply H2; auto.
        * destruct IH2 as (IH2 & _). destruct IH2 as (p' & Hp' & Y); eauto.
      + intros (q & [<-|Hq] & X).
        * exists (proc_of N p x). split; auto. apply H2; auto.
        * destruct IH2 as (_ & IH2). destruct IH2 as (p' & Hp' & Y); eauto. }
  destruct (F _ _ H) as (F1 & F2). rewrite xfmla_state; auto. apply (inh N HN).
Qed.

Lemma det_iff : forall a, a < actions_in (kinds N) ->
  (random_write_exists (kind_of_action N a) = false <-> deterministic_kind N a).
Proof.
  intros a Ha. unfold random_write_exists, deterministic_kind, kind_of_action.
  change (act_pc (act_of (kinds N) a)) with (action_pcsymm_index (kinds N) a).
  set (l := accs _). split.
  - intros H x Hx T. enough (existsb random_write_ck l = true) by congruence. apply existsb_exists. exists x. split; auto.
    unfold random_write_ck. rewrite T. reflexivity.
  - intros H. apply not_true_iff_false. intros X. apply existsb_exists in X. destruct X as (x & Hx & R). apply (H x Hx).
    unfold random_write_ck in R. destruct (a_type x); congruence.
Qed.

(** ** All at once (lightweight) *)
Section Class.
Variable a : nat.
Hypothesis Ha : a < actions_in (kinds N).
Hypothesis Hr : representative_action_index (kinds N) a = Some a.

Lemma links_ok : forall k, In k (kinds N) -> laid_out k.
Proof. apply (no_links _ HN). Qed.

Lemma class_iff : forall p s t, (exists r, In r (represented_actions (kinds N) a) /\ move r p s t) <-> class_move N a p s t.
Proof.
  intros p s t. unfold class_move, move. split.
  - intros (r & Hin & E & M). apply (C40_represented (kinds N) a a r links_ok Ha Hr) in Hin. destruct Hin as (H1 & H2). exists r. auto.
  - intros (r & H1 & H2 & E & M). exists r. split; auto. apply (C40_represented (kinds N) a a r links_ok Ha Hr). auto.
Qed.

Lemma light_denotes : denotes (action_xfmlae_light N a)
  (fun p s t => class_move N a p s t /\ (deterministic_kind N a -> ~ exists r, ok r /\ class_move N a p r s)).
Proof.
  unfold action_xfmlae_light. cbv zeta.
  assert (D : denotes (fold_left (fun x r => or_all x (make_action_xfmlae N r)) (represented_actions (kinds N) a) (no_xn N)) (class_move N a)).
  { refine (denotes_ext _ _ _ (denotes_fold (represented_actions (kinds N) a) _ _ denotes_none _) _).
    - intros r Hin. apply represented_iff in Hin. apply Hin.
    - intros p s t Hp S T. rewrite class_iff. tauto. }
  pose proof (det_iff a Ha) as DI. destruct (random_write_exists (kind_of_action N a)).
  - apply (denotes_ext _ _ _ D). intros p s t Hp S T. split; [|tauto]. intros H. split; auto. intros X. apply DI in X. discriminate.
  - apply (denotes_ext _ _ _ (denotes_disable _ _ D)). intros p s t Hp S T. unfold disabled. tauto.
Qed.
End Class.

(** ** One after the other (cached) *)
Definition below (m a r : nat) : Prop := r < m /\ r < actions_in (kinds N) /\ representative_action_index (kinds N) r = Some a.
Record grown (m a : nat) (R : rel) : Prop := mkGrown {
  gr_sound : forall p s t, ok s -> ok t -> R p s t -> exists r, below m a r /\ move r p s t;
  gr_comp : forall p s t r, In p (pcs N) -> ok s -> ok t -> below m a r -> move r p s t ->
    (deterministic_kind N a -> forall r' u, ok u -> below m a r' -> ~ move r' p u s) -> R p s t;
  gr_off : deterministic_kind N a -> forall p u s t, ok u -> ok s -> ok t -> In p (pcs N) -> R p u s -> R p s t -> False
}.
Definition tbl_ok (m : nat) (tbl : list (list fmla)) : Prop :=
  length tbl = actions_in (kinds N) /\
  forall a, a < actions_in (kinds N) -> exists R, denotes (nth a tbl []) R /\ grown m a R.

Lemma same_kind : forall r a, r < actions_in (kinds N) -> representative_action_index (kinds N) r = Some a ->
  a < actions_in (kinds N) /\ a <= r /\ (deterministic_kind N a <-> deterministic_kind N r) /\ representative_action_index (kinds N) a = Some a.
Proof.
  intros r a Hr E. destruct (C40_representative (kinds N) r links_ok Hr) as (b & E' & L & (EP & _) & B & _).
  rewrite E in E'. injection E' as <-. split; [lia|]. split; auto. split; auto. unfold deterministic_kind. rewrite EP. tauto.
Qed.

Lemma tbl_start : tbl_ok 0 (repeat (no_xn N) (total_acts (kinds N))).
Proof.
  split; [rewrite repeat_length; apply C39_total|]. intros a Ha. exists (fun _ _ _ => False). split.
  - rewrite (nth_indep _ [] (no_xn N)) by (rewrite repeat_length, C39_total; auto). rewrite nth_repeat. apply denotes_none.
  - split; try tauto. intros p s t r Hp S T (H & _). lia.
Qed.

Lemma tbl_step : forall m tbl, m < actions_in (kinds N) -> tbl_ok m tbl -> tbl_ok (S m) (cache_action N tbl m).
Proof.
  intros m tbl Hm (L & H).
  destruct (C40_representative (kinds N) m links_ok Hm) as (a & E & LE & SC & EA & MIN).
  destruct (same_kind m a Hm E) as (Ha & _ & DK & _).
  assert (BS : forall r b, below (S m) b r <-> below m b r \/ (r = m /\ b = a)).
  { intros r b. unfold below. split.
    - intros (H1 & H2 & H3). destruct (Nat.eq_dec r m) as [->|NE]; [right; split; congruence|left; split; [lia|auto]].
    - intros [(H1 & H2 & H3)|(-> & ->)]; [split; [lia|auto]|split; auto]. }
  assert (OTHER : forall b R, b <> a -> grown m b R -> grown (S m) b R).
  { intros b R NE [G1 G2 G3]. split; auto.
    - intros p s t S T X. destruct (G1 p s t S T X) as (r & B & M). exists r. split; auto. apply BS. auto.
    - intros p s t r Hp S T B M Q. apply BS in B. destruct B as [B|(_ & B)]; [|contradiction].
      apply (G2 p s t r); auto. intros D r' u U B'. apply Q; auto. apply BS. auto. }
  unfold cache_action. rewrite E.
  set (x := make_action_xfmlae N m). assert (Dx : denotes x (move m)) by (apply denotes_action; auto).
  (* the entry of the representative before disabling *)
  set (tb := if a =? m then _ else _).
  assert (TB : length tb = actions_in (kinds N) /\
    (forall b, b < actions_in (kinds N) -> b <> a -> exists R, denotes (nth b tb []) R /\ grown (S m) b R) /\
    exists Q, denotes (nth a tb []) (fun p s t => Q p s t \/ move m p s t) /\ grown m a Q).
  { unfold tb. destruct (Nat.eqb_spec a m) as [EM|NE].
    - rewrite upd_length. split; auto. split.
      + intros b Hb NB. rewrite nth_upd_other by congruence. destruct (H b Hb) as (R & D & G). exists R. auto.
      + exists (fun _ _ _ => False). rewrite EM, nth_upd_same by lia. split.
        * apply (denotes_ext _ _ _ Dx). intros; tauto.
        * split; try tauto. intros p s t r Hp S T (B1 & B2 & B3). exfalso.
          destruct (same_kind r m) as (_ & B4 & _); [auto|congruence|]. lia.
    - cbv zeta. rewrite !upd_length. split; auto. split.
      + intros b Hb NB. rewrite nth_upd_other by congruence. destruct (Nat.eq_dec b m) as [->|NM].
        * rewrite nth_upd_same by lia. exists (fun _ _ _ => False). split; [apply denotes_none|].
          split; try tauto. intros p s t r Hp S T B. exfalso. apply BS in B. destruct B as [(B1 & B2 & B3)|(_ & B)]; [|congruence].
          destruct (same_kind r m B2 B3) as (_ & B4 & _). lia.
        * rewrite nth_upd_other by congruence. destruct (H b Hb) as (R & D & G). exists R. auto.
      + rewrite nth_upd_same by (rewrite upd_length; lia). rewrite nth_upd_other by congruence.
        destruct (H a Ha) as (R & D & G). exists R. split; auto. apply denotes_or; auto. }
  clearbody tb. destruct TB as (TL & TO & Q & DQ & [G1 G2 G3]).
  assert (GA : denotes (nth a tb []) (fun p s t => Q p s t \/ move m p s t)) by auto.
  pose proof (det_iff m Hm) as DI. destruct (random_write_exists (kind_of_action N m)).
  - (* random *)
    assert (ND : ~ deterministic_kind N a) by (intros X; rewrite DK in X; apply DI in X; discriminate).
    split; auto. intros b Hb. destruct (Nat.eq_dec b a) as [->|NB]; [|apply TO; auto].
    eexists. split; [exact DQ|]. split; try tauto.
    + intros p s t S T [X|X].
      * destruct (G1 p s t S T X) as (r & B & M). exists r. split; auto. apply BS. auto.
      * exists m. split; auto. apply BS. auto.
    + intros p s t r Hp S T B M _. apply BS in B. destruct B as [B|(-> & _)]; [|auto]. left. apply (G2 p s t r); auto; tauto.
  - assert (D : deterministic_kind N a) by (apply DK, DI; auto).
    split; [rewrite upd_length; auto|]. intros b Hb. destruct (Nat.eq_dec b a) as [->|NB]; [|rewrite nth_upd_other by congruence; apply TO; auto].
    rewrite nth_upd_same by lia. eexists. split; [apply denotes_disable; exact DQ|]. unfold disabled.
    assert (SND : forall p s t, ok s -> ok t -> Q p s t \/ move m p s t -> exists r, below (S m) a r /\ move r p s t).
    { intros p s t S T [X|X].
      - destruct (G1 p s t S T X) as (r & B & M). exists r. split; auto. apply BS. auto.
      - exists m. split; auto. apply BS. auto. }
    split.
    + intros p s t S T (X & _). auto.
    + intros p s t r Hp S T B M X. split.
      * apply BS in B. destruct B as [B|(-> & _)]; [|auto]. left. apply (G2 p s t r); auto.
        intros _ r' u U B' M'. apply (X D r' u); auto. apply BS. auto.
      * intros (u & U & Y). destruct (SND p u s U S Y) as (r' & B' & M'). exact (X D r' u U B' M').
    + intros _ p u s t U S T Hp (X1 & X2) (Y1 & Y2). apply Y2. exists u. auto.
Qed.

Lemma tbl_all : tbl_ok (actions_in (kinds N)) (act_xfmlaes N).
Proof.
  unfold act_xfmlaes. cbv zeta. rewrite C39_total.
  assert (G : forall n, n <= actions_in (kinds N) -> tbl_ok n (fold_left (cache_action N) (seq 0 n) (repeat (no_xn N) (actions_in (kinds N))))).
  { induction n as [|n IH]; intros Hn.
    - pose proof tbl_start as T. rewrite C39_total in T. exact T.
    - rewrite seq_S, fold_left_app. cbn [fold_left Nat.add]. apply tbl_step; [lia|]. apply IH. lia. }
  apply G. lia.
Qed.

Lemma cached_denotes : forall a, a < actions_in (kinds N) -> representative_action_index (kinds N) a = Some a ->
  exists R, denotes (action_xfmlae_cached N a) R /\
   (forall p s t, ok s -> ok t -> R p s t -> class_move N a p s t) /\
   (forall p s t, In p (pcs N) -> ok s -> ok t -> class_move N a p s t ->
      (deterministic_kind N a -> forall u, ok u -> ~ class_move N a p u s) -> R p s t) /\
   (deterministic_kind N a -> forall p u s t, ok u -> ok s -> ok t -> In p (pcs N) -> R p u s -> R p s t -> False).
Proof.
  intros a Ha Hr. destruct tbl_all as (_ & H). destruct (H a Ha) as (R & D & [G1 G2 G3]). exists R. split; auto.
  assert (BI : forall p s t, (exists r, below (actions_in (kinds N)) a r /\ move r p s t) <-> class_move N a p s t).
  { intros p s t. rewrite <- (class_iff a Ha Hr). unfold below. split.
    - intros (r & (H1 & H2 & H3) & M). exists r. split; auto. apply represented_iff. auto.
    - intros (r & Hin & M). apply represented_iff in Hin. exists r. tauto. }
  split; [|split; auto].
  - intros p s t S T X. apply BI. auto.
  - intros p s t Hp S T X Q. apply BI in X. destruct X as (r & B & M). apply (G2 p s t r); auto.
    intros DK r' u U B' M'. apply (Q DK u U). apply BI. eauto.
Qed.
End Net.
