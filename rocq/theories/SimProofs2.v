(** The lists of states that the simulator offers, and its predicates. *)
From Coq Require Import List Arith Bool ZArith Lia Ascii.
From Verif Require Import FinLib Radix FmlaModel FmlaSpec FmlaProofs FmlaProofs2 FmlaProofs3 FmlaProofs4 FmlaProps
  ReachModel ReachSpec ReachProofs CandProofs CmdModel CmdProofs2 SimModel SimSpec SimProofs.
Import ListNotations.
Local Open Scope list_scope.

Lemma NoDup_app_intro : forall (A : Type) (l m : list A), NoDup l -> NoDup m -> (forall x, In x l -> In x m -> False) -> NoDup (l ++ m).
Proof.
  induction l as [|x l IH]; intros m L M D; auto. inversion L; subst. cbn. constructor.
  - rewrite in_app_iff. intros [H|H]; auto. apply (D x); auto. left. auto.
  - apply IH; auto. intros y Y1 Y2. apply (D y); auto. right. auto.
Qed.

Section Options.
Variable ds : list nat.
Hypothesis INH : inhabited ds.
Notation ok := (ok ds).

Lemma not_state : forall f, state_fmla ds f -> state_fmla ds (not_PFmla f).
Proof. intros f F. apply state_of_eval. intros a i p A I P. rewrite !eval_not. f_equal. apply (state_eval ds); auto. Qed.
Lemma nimp_state : forall f g, state_fmla ds f -> state_fmla ds g -> state_fmla ds (nimp_PFmla f g).
Proof. intros f g F G. apply state_of_eval. intros a i p A I P. rewrite !eval_nimp. f_equal; [|f_equal]; apply (state_eval ds); auto. Qed.
Lemma holds_not : forall f s, holds (not_PFmla f) s <-> ~ holds f s.
Proof. intros f s. unfold holds, meaning. rewrite eval_not, negb_true_iff. destruct (FmlaModel.eval f _); intuition discriminate. Qed.
Lemma holds_nimp : forall f g s, holds (nimp_PFmla f g) s <-> holds f s /\ ~ holds g s.
Proof.
  intros f g s. unfold holds, meaning. rewrite eval_nimp, andb_true_iff, negb_true_iff.
  destruct (FmlaModel.eval g _); intuition discriminate.
Qed.
Lemma values_all : forall s, ok s -> values (all_ids ds) s = s.
Proof.
  intros s S. unfold values, all_ids. rewrite <- (ok_length ds s S). clear.
  induction s as [|x s IH]; auto. cbn [length seq map nth]. f_equal. rewrite <- seq_shift, map_map. exact IH.
Qed.
Lemma of_state_is : forall st a i s, ok st -> ok a -> ok i -> ok s ->
  (meaning (of_state ds st (all_ids ds)) a i s <-> s = st).
Proof.
  intros st a i s ST A I S. unfold meaning. rewrite (ev_of_state ds); auto; [rewrite values_all by auto; tauto|apply wf_all|].
  unfold all_ids. rewrite seq_length. apply (ok_length ds). auto.
Qed.
Lemma of_state_state : forall st, ok st -> state_fmla ds (of_state ds st (all_ids ds)).
Proof. intros st ST a i a' i' p A I A' I' P. rewrite !of_state_is by auto. tauto. Qed.
Lemma eqc_is : forall v x a i s, v < length ds -> ok a -> ok i -> ok s -> (meaning (eqc_PFmlaVbl ds v x) a i s <-> nth v s 0 = x).
Proof.
  intros v x a i s V A I S. unfold meaning. rewrite (ev_eqc ds) by auto. apply Nat.eqb_eq.
Qed.
Lemma eqc_state : forall v x, v < length ds -> state_fmla ds (eqc_PFmlaVbl ds v x).
Proof. intros v x V a i a' i' p A I A' I' P. rewrite !eqc_is by auto. tauto. Qed.

(** How many states a formula has. *)
Definition count (f : fmla) : nat := length (filter (fun s => FmlaModel.eval f (join s s s)) (assignments ds)).
Lemma count_bound : forall f, count f <= prod ds.
Proof.
  intros f. unfold count. rewrite <- assignments_length. generalize (assignments ds). induction l as [|x l IH]; cbn; auto.
  destruct (FmlaModel.eval f _); cbn; lia.
Qed.
Lemma count_less : forall f g v, (forall s, ok s -> (holds g s <-> holds f s /\ s <> v)) -> ok v -> holds f v -> count g < count f.
Proof.
  intros f g v E V H. unfold count.
  assert (IN : In v (assignments ds)) by (apply in_assignments; auto).
  assert (W : Forall ok (assignments ds)) by (apply Forall_forall; intros s S; apply in_assignments; auto).
  assert (LE : forall l, Forall ok l -> length (filter (fun s => FmlaModel.eval g (join s s s)) l) <= length (filter (fun s => FmlaModel.eval f (join s s s)) l)).
  { induction l as [|x l IH]; intros WL; cbn; auto. inversion WL as [|? ? X WL']; subst. specialize (IH WL').
    specialize (E x X). unfold holds, meaning in E. destruct (FmlaModel.eval g _), (FmlaModel.eval f _); cbn; try lia. }
  revert IN W. generalize (assignments ds). induction l as [|x l IH]; intros IN W; [destruct IN|].
  inversion W as [|? ? X W']; subst. cbn. specialize (LE l W'). destruct IN as [->|IN].
  - unfold holds, meaning in H. rewrite H. destruct (FmlaModel.eval g (join v v v)) eqn:G; [|cbn; lia].
    exfalso. destruct (proj1 (E v V) G) as (_ & C). apply C. auto.
  - specialize (IH IN W'). specialize (E x X). unfold holds, meaning in E. destruct (FmlaModel.eval g _), (FmlaModel.eval f _); cbn; try lia.
Qed.

Lemma state_of_ok : forall f, state_fmla ds f -> sat_ck ds f = true -> exists v, state_of_PFmla ds f (all_ids ds) = Some v /\ ok v /\ holds f v.
Proof.
  intros f F S. apply (sat_state ds INH) in S; auto. destruct S as (s & S & H).
  destruct (state_of_PFmla ds f (all_ids ds)) as [v|] eqn:E.
  - destruct (C57_state_of_least ds INH f (all_ids ds) v (wf_all ds)) as ((a & i & p & A & I & P & M & V) & _); auto.
    { exists s, s, s. auto. }
    rewrite values_all in V by auto. subst v. exists p. split; auto. split; auto. apply (F a i p p p); auto.
  - exfalso. destruct f as [[]|f]; discriminate.
Qed.

Lemma list_states_spec : forall fuel f, state_fmla ds f -> count f < fuel ->
  exists l, list_states ds fuel f = Some l /\ NoDup l /\ forall t, In t l <-> ok t /\ holds f t.
Proof.
  induction fuel as [|fuel IH]; intros f F C; [lia|]. cbn [list_states]. destruct (sat_ck ds f) eqn:S.
  - destruct (state_of_ok f F S) as (v & -> & V & H). set (g := nimp_PFmla f (of_state ds v (all_ids ds))).
    assert (G : state_fmla ds g) by (apply nimp_state; auto; apply of_state_state; auto).
    assert (E : forall s, ok s -> (holds g s <-> holds f s /\ s <> v)).
    { intros s Hs. unfold g. rewrite holds_nimp. unfold holds at 2. rewrite of_state_is by auto. tauto. }
    destruct (IH g G) as (l & -> & ND & L). { pose proof (count_less f g v E V H). lia. }
    cbn [option_map]. exists (v :: l). split; auto. split.
    + constructor; auto. rewrite L. intros (_ & X). apply E in X; auto. tauto.
    + intros t. cbn [In]. rewrite L. split.
      * intros [<-|(T & X)]; auto. apply E in X; auto. tauto.
      * intros (T & X). destruct (list_eq_dec Nat.eq_dec v t) as [|NE]; auto. right. split; auto. apply E; auto.
  - exists []. split; auto. split; [constructor|]. intros t. split; [intros []|]. intros (T & H).
    assert (sat_ck ds f = true) by (apply (sat_state ds INH); auto; exists t; auto). congruence.
Qed.

Lemma differs_is : forall v x s, v < length ds -> ok s -> (holds (differs ds v x) s <-> nth v s 0 <> x).
Proof. intros v x s V S. unfold differs. rewrite holds_not. unfold holds. rewrite eqc_is by auto. tauto. Qed.
Lemma differs_state : forall v x, v < length ds -> state_fmla ds (differs ds v x).
Proof. intros. apply not_state, eqc_state. auto. Qed.

Lemma by_vbl_spec : forall st vs next, Forall (fun v => v < length ds) vs -> state_fmla ds next ->
  exists l, by_vbl ds st vs next = Some l /\ NoDup l /\
  forall t, In t l <-> ok t /\ holds next t /\ exists v, In v vs /\ nth v t 0 <> nth v st 0.
Proof.
  intros st. induction vs as [|v vs IH]; intros next W F.
  - exists []. split; auto. split; [constructor|]. intros t. split; [intros []|intros (_ & _ & v & [] & _)].
  - inversion W as [|? ? V W']; subst. cbn [by_vbl].
    destruct (list_states_spec (S (prod ds)) (and_PFmla next (differs ds v (nth v st 0)))) as (l1 & -> & N1 & H1).
    { apply (CmdProofs2.and_static); auto. apply differs_state; auto. }
    { apply Nat.lt_succ_r, count_bound. }
    destruct (IH (nimp_PFmla next (differs ds v (nth v st 0))) W') as (l2 & -> & N2 & H2); [apply nimp_state; auto; apply differs_state; auto|].
    exists (l1 ++ l2). split; auto.
    assert (D : forall t, ok t -> (holds (and_PFmla next (differs ds v (nth v st 0))) t <-> holds next t /\ nth v t 0 <> nth v st 0)).
    { intros t T. rewrite (CandProofs.holds_and), differs_is by auto. tauto. }
    assert (E : forall t, ok t -> (holds (nimp_PFmla next (differs ds v (nth v st 0))) t <-> holds next t /\ nth v t 0 = nth v st 0)).
    { intros t T. rewrite holds_nimp, differs_is by auto. destruct (Nat.eq_dec (nth v t 0) (nth v st 0)); tauto. }
    split.
    + apply NoDup_app_intro; auto. intros t T1 T2. apply H1 in T1. apply H2 in T2. destruct T1 as (T & X1), T2 as (_ & X2 & _).
      apply D in X1; auto. apply E in X2; auto. tauto.
    + intros t. rewrite in_app_iff, H1, H2. split.
      * intros [(T & X)|(T & X & u & U & X')]; split; auto.
        -- apply D in X; auto. split; [tauto|]. exists v. split; [left; auto|tauto].
        -- apply E in X; auto. split; [tauto|]. exists u. split; [right; auto|auto].
      * intros (T & X & u & [->|U] & X').
        -- left. split; auto. apply D; auto.
        -- destruct (Nat.eq_dec (nth v t 0) (nth v st 0)) as [Q|Q]; [right|left]; (split; [auto|]).
           ++ split; [apply E; auto|]. exists u. auto.
           ++ apply D; auto.
Qed.

Lemma ok_differ : forall s t, ok s -> ok t -> (t <> s <-> exists v : nat, In v (all_ids ds) /\ nth v t 0 <> nth v s 0).
Proof.
  intros s t S T. split.
  - intros NE. destruct (existsb (fun v => negb (nth v t 0 =? nth v s 0)) (all_ids ds)) eqn:E.
    + apply existsb_exists in E. destruct E as (v & V & E). exists v. split; auto. apply negb_true_iff, Nat.eqb_neq in E. auto.
    + exfalso. apply NE. apply (nth_ext _ _ 0 0); [rewrite (ok_length ds s S), (ok_length ds t T); auto|]. intros v V.
      rewrite (ok_length ds t T) in V. destruct (Nat.eq_dec (nth v t 0) (nth v s 0)) as [|Q]; auto. exfalso.
      enough (existsb (fun v => negb (nth v t 0 =? nth v s 0)) (all_ids ds) = true) by congruence. apply existsb_exists.
      exists v. split; [apply in_seq; lia|]. apply negb_true_iff, Nat.eqb_neq. auto.
  - intros (v & _ & H) ->. auto.
Qed.

Variable xn : fmla.
Hypothesis TX : trans_fmla ds xn.

Lemma next_is : forall (fwd : bool) st t, ok st -> ok t ->
  (holds (if fwd then img1_PFmla ds xn (of_state ds st (all_ids ds)) else pre1_PFmla ds xn (of_state ds st (all_ids ds))) t <-> move xn fwd st t).
Proof.
  intros fwd st t ST T. assert (SS := of_state_state st ST).
  assert (NC : ~ const_true_on_empty ds xn (of_state ds st (all_ids ds))).
  { intros (_ & _ & H). apply (H st ST). apply of_state_is; auto. }
  destruct fwd; cbn [move].
  - rewrite (img1_state ds) by auto. split.
    + intros (s & S & X & H). apply of_state_is in H; auto. subst s. auto.
    + intros X. exists st. split; auto. split; auto. apply of_state_is; auto.
  - rewrite (pre1_state ds) by auto. split.
    + intros (s & S & X & H). apply of_state_is in H; auto. subst s. auto.
    + intros X. exists st. split; auto. split; auto. apply of_state_is; auto.
Qed.
Lemma next_static : forall (fwd : bool) st, ok st ->
  state_fmla ds (if fwd then img1_PFmla ds xn (of_state ds st (all_ids ds)) else pre1_PFmla ds xn (of_state ds st (all_ids ds))).
Proof.
  intros fwd st ST. assert (SS := of_state_state st ST).
  apply state_of_eval. intros a i p A I P. apply iff_eqb. destruct fwd.
  - rewrite !(ev_img1 ds) by (auto; intros _ _; exists st; split; auto; apply of_state_is; auto). split; intros (s & S & E1 & E2); exists s; (split; [auto|]);
      rewrite (trans_eval ds xn TX) in * by auto; rewrite (state_eval ds _ SS) in * by auto; auto.
  - rewrite !(ev_pre1 ds) by (auto; intros _ _; exists st; split; auto; apply of_state_is; auto). split; intros (s & S & E1 & E2); exists s; (split; [auto|]);
      rewrite (trans_eval ds xn TX) in * by auto; rewrite (state_eval ds _ SS) in * by auto; auto.
Qed.

Lemma next_states_spec : forall fwd st mask, ok st -> state_fmla ds mask ->
  exists l, next_states ds xn fwd st mask = Some l /\ NoDup l /\ forall t, In t l <-> offered ds xn fwd (holds mask) st t.
Proof.
  intros fwd st mask ST F. unfold next_states.
  destruct (by_vbl_spec st (all_ids ds) (and_PFmla (if fwd then img1_PFmla ds xn (of_state ds st (all_ids ds)) else pre1_PFmla ds xn (of_state ds st (all_ids ds))) mask)) as (l & E & ND & H).
  - apply wf_all.
  - apply CmdProofs2.and_static; auto. apply next_static; auto.
  - exists l. split; auto. split; auto. intros t. rewrite H. unfold offered. rewrite CandProofs.holds_and. split.
    + intros (T & (X & M) & D). apply next_is in X; auto. apply ok_differ in D; auto.
    + intros (T & D & X & M). split; auto. split; [split; [apply next_is; auto|auto]|apply ok_differ; auto].
Qed.
End Options.
