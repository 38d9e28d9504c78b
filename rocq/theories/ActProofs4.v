(** The coexistence test: proofs. *)
From Coq Require Import List Arith Bool Lia.
From Verif Require Import FinLib Radix ActModel ActSpec ActProofs ActProofs2 ActProofs3.
Import ListNotations.

Lemma visible_ck : forall a, (synt_read_ck a = true) <-> visible a \/ False.
Proof.
  intros [[] [] d]; unfold visible, synt_read_ck; cbn; split; intros H; auto; try discriminate;
    try (left; repeat split; discriminate);
    destruct H as [(A & B & C)|[]]; exfalso; auto.
Qed.

Lemma visible_iff : forall a, synt_read_ck a = true <-> visible a.
Proof. intros a. rewrite visible_ck. tauto. Qed.

Lemma visible_dec : forall a, visible a \/ ~ visible a.
Proof.
  intros a. destruct (synt_read_ck a) eqn:E; [left|right]; rewrite <- visible_iff; congruence.
Qed.

(** Quantifying over written places and over written accesses is the same. *)
Lemma all_written : forall pc (P : nat -> nat -> Prop),
  (forall w, w < nw pc -> P (nth w (wmap pc) 0) w) <->
  (forall i, i < nr pc -> wck pc i = true -> P i (place pc i)).
Proof.
  intros pc P. split; intros H.
  - intros i Hi W. destruct (nth_place pc i Hi W) as [P1 P2]. specialize (H _ P1). rewrite P2 in H. exact H.
  - intros w Hw. destruct (wmap_nth pc w Hw) as (M1 & M2 & M3). specialize (H _ M1 M2). rewrite M3 in H. exact H.
Qed.

Lemma forallb_written : forall pc (f : nat -> bool) (P : nat -> Prop),
  (forall i, i < nr pc -> wck pc i = true -> (f (place pc i) = true <-> P i)) ->
  (forallb f (seq 0 (nw pc)) = true <-> forall i, i < nr pc -> wck pc i = true -> P i).
Proof.
  intros pc f P H. rewrite forallb_forall. split.
  - intros F i Hi W. apply H; auto. apply F. apply in_seq. destruct (nth_place pc i Hi W). lia.
  - intros F w Hw. apply in_seq in Hw. destruct (wmap_nth pc w) as (M1 & M2 & M3); [lia|].
    rewrite <- M3. apply H; auto.
Qed.

Lemma existsb_written : forall pc (f : nat -> bool) (P : nat -> Prop),
  (forall i, i < nr pc -> wck pc i = true -> (f (place pc i) = true <-> P i)) ->
  (existsb f (seq 0 (nw pc)) = true <-> exists i, i < nr pc /\ wck pc i = true /\ P i).
Proof.
  intros pc f P H. rewrite existsb_exists. split.
  - intros (w & Hw & F). apply in_seq in Hw. destruct (wmap_nth pc w) as (M1 & M2 & M3); [lia|].
    exists (nth w (wmap pc) 0). split; auto. split; auto. apply H; auto. rewrite M3. exact F.
  - intros (i & Hi & W & Q). destruct (nth_place pc i Hi W) as [P1 P2]. exists (place pc i).
    split; [apply in_seq; lia|]. apply H; auto.
Qed.

Lemma waccess_place : forall pc i, i < nr pc -> wck pc i = true -> waccess pc (place pc i) = acc pc i.
Proof. intros pc i Hi W. unfold waccess. destruct (nth_place pc i Hi W) as [_ ->]. reflexivity. Qed.
Lemma aguard_place : forall pc v i, i < nr pc -> wck pc i = true -> aguard pc v (place pc i) = tested v i.
Proof. intros pc v i Hi W. unfold aguard. destruct (nth_place pc i Hi W) as [_ ->]. reflexivity. Qed.

Lemma writeonly_visible : forall pc i, wck pc i = true ->
  (synt_writeonly_ck (acc pc i) = false <-> visible (acc pc i)).
Proof.
  intros pc i W. unfold synt_writeonly_ck. unfold wck in W. rewrite W, andb_true_r.
  rewrite negb_false_iff. apply visible_iff.
Qed.

Lemma self_loop_iff : forall pc a, self_loop pc a = true <-> idle pc a.
Proof.
  intros pc a. unfold self_loop, idle.
  rewrite (forallb_written pc _ (fun i => visible (acc pc i) -> assigned pc a i = tested a i)).
  - split; intros H i Hi A; [intros B; apply H; auto; apply writable_ck; exact B|].
    intros B. apply H; auto. apply writable_ck. exact A.
  - intros i Hi W. rewrite waccess_place, aguard_place by auto.
    rewrite orb_true_iff, Nat.eqb_eq. change (assign pc a (place pc i)) with (assigned pc a i).
    pose proof (writeonly_visible pc i W) as V.
    destruct (synt_writeonly_ck (acc pc i)); split; intros H; auto.
    + intros C. apply V in C. discriminate.
    + intros _. destruct H as [H|H]; [discriminate|exact H].
    + right. apply H. apply V. reflexivity.
Qed.

Lemma enables_iff : forall pc a b, enables pc a b = true <->
  forall i, i < nr pc -> wck pc i = true -> visible (acc pc i) -> assigned pc a i = tested b i.
Proof.
  intros pc a b. unfold enables.
  rewrite (forallb_written pc _ (fun i => visible (acc pc i) -> assigned pc a i = tested b i)).
  - reflexivity.
  - intros i Hi W. rewrite waccess_place, aguard_place by auto.
    rewrite orb_true_iff, Nat.eqb_eq. change (assign pc a (place pc i)) with (assigned pc a i).
    pose proof (writeonly_visible pc i W) as V.
    destruct (synt_writeonly_ck (acc pc i)); split; intros H; auto.
    + intros C. apply V in C. discriminate.
    + intros _. destruct H as [H|H]; [discriminate|exact H].
    + right. apply H. apply V. reflexivity.
Qed.

Lemma writeonly_exists_iff : forall pc, writeonly_exists pc = false <->
  forall i, i < nr pc -> wck pc i = true -> visible (acc pc i).
Proof.
  intros pc. unfold writeonly_exists.
  pose proof (existsb_written pc (fun w => synt_writeonly_ck (waccess pc w))
                (fun i => synt_writeonly_ck (acc pc i) = true)) as H.
  destruct (existsb _ _).
  - split; [discriminate|]. intros V. destruct H as [H _].
    { intros i Hi W. rewrite waccess_place by auto. reflexivity. }
    destruct (H eq_refl) as (i & Hi & W & C). specialize (V i Hi W).
    apply writeonly_visible in V; auto. congruence.
  - split; auto. intros _ i Hi W. apply writeonly_visible; auto.
    destruct (synt_writeonly_ck (acc pc i)) eqn:E; auto. destruct H as [_ H].
    { intros j Hj Wj. rewrite waccess_place by auto. reflexivity. }
    exfalso. enough (false = true) by discriminate. apply H. eauto.
Qed.

Lemma everything_visible_iff : forall pc, everything_visible pc <-> writeonly_exists pc = false.
Proof.
  intros pc. rewrite writeonly_exists_iff. unfold everything_visible. split.
  - intros H i Hi W. apply H; [apply nth_In; exact Hi|apply writable_ck; exact W].
  - intros H a Ha W. apply In_nth with (d := acc0) in Ha. destruct Ha as (i & Hi & <-).
    apply H; auto. apply writable_ck. exact W.
Qed.

(** The guard loop. *)
Definition differ (pc : pcsymm) (a b : list nat) (j : nat) : bool :=
  synt_read_ck (acc pc j) && negb (guard a j =? guard b j).
Definition differ_ro (pc : pcsymm) (a b : list nat) (j : nat) : bool :=
  differ pc a b j && (negb (write_ck (acc pc j)) && negb (random_read_ck (acc pc j))).

Lemma guards_differ_spec : forall pc a b js d,
  guards_differ pc a b js d =
  if existsb (differ_ro pc a b) js then (true, false) else (d || existsb (differ pc a b) js, true).
Proof.
  induction js as [|j js IH]; intros d; cbn [guards_differ existsb].
  - rewrite orb_false_r. reflexivity.
  - assert (Ej : differ pc a b j = synt_read_ck (acc pc j) && negb (guard a j =? guard b j)) by reflexivity.
    assert (Rj : differ_ro pc a b j = differ pc a b j && (negb (write_ck (acc pc j)) && negb (random_read_ck (acc pc j))))
      by reflexivity.
    rewrite Rj, Ej. clear Rj Ej. destruct (synt_read_ck (acc pc j)); cbn [negb andb orb].
    + destruct (guard a j =? guard b j); cbn [negb andb orb].
      * rewrite IH. reflexivity.
      * destruct (negb (write_ck (acc pc j)) && negb (random_read_ck (acc pc j))); cbn [orb]; auto.
        rewrite IH. destruct (existsb (differ_ro pc a b) js); auto. rewrite orb_true_r. reflexivity.
    + rewrite IH. reflexivity.
Qed.

Lemma differ_iff : forall pc a b, existsb (differ pc a b) (seq 0 (nr pc)) = true <->
  exists i, i < nr pc /\ visible (acc pc i) /\ tested a i <> tested b i.
Proof.
  intros. rewrite existsb_exists. unfold differ. split.
  - intros (i & Hi & D). apply in_seq in Hi. apply andb_true_iff in D. destruct D as [D1 D2].
    apply negb_true_iff, Nat.eqb_neq in D2. exists i. split; [lia|]. split; auto. apply visible_iff. exact D1.
  - intros (i & Hi & V & D). exists i. split; [apply in_seq; lia|]. apply visible_iff in V. rewrite V.
    cbn. apply negb_true_iff, Nat.eqb_neq. exact D.
Qed.

Lemma no_common_state : forall pc a b,
  (forall x, ~ (can_act pc a x /\ can_act pc b x)) <->
  (exists i, i < nr pc /\ visible (acc pc i) /\ tested a i <> tested b i).
Proof.
  intros pc a b. rewrite <- differ_iff. split.
  - intros H. destruct (existsb (differ pc a b) (seq 0 (nr pc))) eqn:E; auto. exfalso.
    apply (H (tested a)). split; intros i Hi V; auto.
    destruct (Nat.eq_dec (tested a i) (tested b i)) as [e|n]; auto. exfalso.
    assert (C : existsb (differ pc a b) (seq 0 (nr pc)) = true) by (apply differ_iff; exists i; auto).
    congruence.
  - intros H x [A B]. apply differ_iff in H. destruct H as (i & Hi & V & D).
    apply D. rewrite <- (A i Hi V). apply (B i Hi V).
Qed.

(** [a] can be followed by [b] exactly when [a] assigns what [b] tests for and both test for the
    same values of the variables that are not written. *)
Definition leads (pc : pcsymm) (a b : list nat) : Prop :=
  exists x y, acts pc a x y /\ can_act pc b y.

Lemma leads_iff : forall pc a b, leads pc a b <->
  (forall i, i < nr pc -> visible (acc pc i) ->
     (wck pc i = true -> assigned pc a i = tested b i) /\
     (wck pc i = false -> tested a i = tested b i)).
Proof.
  intros pc a b. split.
  - intros (x & y & [CA AC] & CB) i Hi V. destruct (AC i Hi V) as [A1 A2]. specialize (CB i Hi V).
    specialize (CA i Hi V). split; intros W.
    + rewrite <- A1; [exact CB|apply writable_ck; exact W].
    + rewrite <- CA, <- CB. symmetry. apply A2. rewrite <- writable_ck. unfold wck, acc in W. congruence.
  - intros H. exists (tested a), (fun i => if wck pc i then assigned pc a i else tested a i).
    split; [split|].
    + intros i Hi V. reflexivity.
    + intros i Hi V. fold (acc pc i). rewrite <- writable_ck. fold (wck pc i). split; intros W.
      * rewrite W. reflexivity.
      * destruct (wck pc i); [congruence|reflexivity].
    + intros i Hi V. destruct (H i Hi V) as [H1 H2]. destruct (wck pc i); auto.
Qed.

Lemma not_random : forall pc, no_randomness pc -> forall i, i < nr pc ->
  random_read_ck (acc pc i) = false /\ random_write_ck (acc pc i) = false.
Proof.
  intros pc NR i Hi. destruct (NR (acc pc i)) as [A B]; [apply nth_In; exact Hi|].
  unfold random_read_ck, random_write_ck. destruct (a_type (acc pc i)); auto; congruence.
Qed.

Lemma no_random_write : forall pc, no_randomness pc -> random_write pc = false.
Proof.
  intros pc NR. unfold random_write.
  destruct (existsb _ _) eqn:E; auto.
  apply (existsb_written pc _ (fun i => random_write_ck (acc pc i) = true)) in E.
  - destruct E as (i & Hi & W & C). destruct (not_random pc NR i Hi). congruence.
  - intros i Hi W. rewrite waccess_place by auto. reflexivity.
Qed.

Lemma differ_ro_iff : forall pc a b, no_randomness pc ->
  existsb (differ_ro pc a b) (seq 0 (nr pc)) = true <->
  exists i, i < nr pc /\ visible (acc pc i) /\ wck pc i = false /\ tested a i <> tested b i.
Proof.
  intros pc a b NR. rewrite existsb_exists. unfold differ_ro, differ. split.
  - intros (i & Hi & D). apply in_seq in Hi. rewrite !andb_true_iff, !negb_true_iff in D.
    destruct D as [[D1 D2] [D3 D4]]. apply Nat.eqb_neq in D2.
    exists i. split; [lia|]. split; [apply visible_iff; exact D1|]. auto.
  - intros (i & Hi & V & W & D). exists i. split; [apply in_seq; lia|]. apply visible_iff in V.
    destruct (not_random pc NR i Hi) as [R _]. unfold wck in W. rewrite V, W, R. cbn.
    rewrite andb_true_r. apply negb_true_iff, Nat.eqb_neq. exact D.
Qed.

Lemma leads_enables : forall pc a b, no_randomness pc ->
  leads pc a b <-> (existsb (differ_ro pc a b) (seq 0 (nr pc)) = false /\ enables pc a b = true).
Proof.
  intros pc a b NR. rewrite leads_iff, enables_iff. split.
  - intros H. split.
    + destruct (existsb _ _) eqn:E; auto. apply differ_ro_iff in E; auto.
      destruct E as (i & Hi & V & W & D). exfalso. apply D. apply H; auto.
    + intros i Hi W V. apply H; auto.
  - intros [E F] i Hi V. split; intros W; auto.
    destruct (Nat.eq_dec (tested a i) (tested b i)) as [e|n]; auto. exfalso.
    assert (C : existsb (differ_ro pc a b) (seq 0 (nr pc)) = true) by (apply differ_ro_iff; eauto 6).
    congruence.
Qed.

Lemma differ_ro_sym : forall pc a b, existsb (differ_ro pc a b) (seq 0 (nr pc)) =
  existsb (differ_ro pc b a) (seq 0 (nr pc)).
Proof.
  intros. induction (seq 0 (nr pc)) as [|j js IH]; cbn; auto. rewrite IH. f_equal.
  unfold differ_ro, differ. rewrite Nat.eqb_sym. reflexivity.
Qed.

Lemma adj_eql_differ : forall pc a b, readable_adj_eql pc a b = negb (existsb (differ pc a b) (seq 0 (nr pc))).
Proof.
  intros. unfold readable_adj_eql. induction (seq 0 (nr pc)) as [|j js IH]; cbn; auto.
  rewrite IH, negb_orb. f_equal. unfold differ. rewrite negb_andb, negb_involutive. reflexivity.
Qed.

(** The test, rewritten. *)
Lemma coexist_vals_eq : forall safe fd pu pc a b, no_randomness pc ->
  coexist_vals safe fd pu pc a b =
  existsb (differ pc a b) (seq 0 (nr pc)) &&
  (existsb (differ_ro pc a b) (seq 0 (nr pc)) ||
   (if negb (writeonly_exists pc) && (self_loop pc a || self_loop pc b) then false
    else if enables pc a b && negb (self_loop pc b) then
      if fd then false else negb (safe (chained pc a b))
    else if enables pc b a && negb (self_loop pc a) then
      if fd then false else negb (safe (chained pc b a))
    else true)).
Proof.
  intros safe fd pu pc a b NR. unfold coexist_vals. rewrite adj_eql_differ, guards_differ_spec.
  destruct (existsb (differ pc a b) (seq 0 (nr pc))) eqn:D; cbn [negb andb orb].
  - rewrite andb_false_r. cbn [andb].
    destruct (existsb (differ_ro pc a b) (seq 0 (nr pc))); cbn [negb andb orb]; auto.
    rewrite no_random_write by exact NR. reflexivity.
  - assert (DR : existsb (differ_ro pc a b) (seq 0 (nr pc)) = false).
    { destruct (existsb (differ_ro pc a b) (seq 0 (nr pc))) eqn:E; auto.
      apply differ_ro_iff in E; auto. destruct E as (i & Hi & V & _ & N).
      assert (C : existsb (differ pc a b) (seq 0 (nr pc)) = true) by (apply differ_iff; eauto). congruence. }
    rewrite DR. cbn [negb]. destruct (readable_img_eql pc a b && negb (writeonly_img_eql pc a b)); auto.
    destruct (pu && true && negb (readable_img_eql pc a b)); auto.
Qed.

Theorem coexist_sound : forall safe pu pc a b, no_randomness pc ->
  coexist_vals safe true pu pc a b = true ->
  (forall x, ~ (can_act pc a x /\ can_act pc b x)) /\
  (leads pc a b -> idle pc b) /\ (leads pc b a -> idle pc a) /\
  (everything_visible pc -> ~ leads pc a b /\ ~ leads pc b a).
Proof.
  intros safe pu pc a b NR H. rewrite coexist_vals_eq in H by exact NR.
  apply andb_true_iff in H. destruct H as [D H].
  split; [apply no_common_state; apply differ_iff; exact D|].
  rewrite !leads_enables by exact NR. rewrite (differ_ro_sym pc b a), everything_visible_iff.
  destruct (existsb (differ_ro pc a b) (seq 0 (nr pc))); cbn [orb] in H.
  - split; [intros [C _]; discriminate|]. split; [intros [C _]; discriminate|].
    intros _. split; intros [C _]; discriminate.
  - rewrite <- !self_loop_iff.
    destruct (writeonly_exists pc), (self_loop pc a), (self_loop pc b), (enables pc a b), (enables pc b a);
      cbn in H; try discriminate; repeat split; auto; try discriminate; intros C;
      try (destruct C as [_ C]; discriminate C); discriminate C.
Qed.

Theorem coexist_complete : forall safe pu pc a b, no_randomness pc ->
  ~ idle pc a -> ~ idle pc b ->
  (forall x, ~ (can_act pc a x /\ can_act pc b x)) -> ~ leads pc a b -> ~ leads pc b a ->
  coexist_vals safe true pu pc a b = true.
Proof.
  intros safe pu pc a b NR IA IB D LA LB. rewrite coexist_vals_eq by exact NR.
  apply no_common_state, differ_iff in D. rewrite D. cbn [andb].
  rewrite leads_enables in LA, LB by exact NR. rewrite differ_ro_sym in LB.
  rewrite <- self_loop_iff in IA, IB.
  destruct (existsb (differ_ro pc a b) (seq 0 (nr pc))); cbn [orb]; auto.
  destruct (self_loop pc a), (self_loop pc b), (enables pc a b), (enables pc b a); try tauto;
    try congruence; cbn; rewrite andb_false_r; reflexivity.
Qed.

(** Without [force_disabling] a chain is accepted only if the action that shortcuts it is not safe. *)
Theorem coexist_chain : forall safe pu pc a b, no_randomness pc ->
  coexist_vals safe false pu pc a b = true ->
  (forall x, ~ (can_act pc a x /\ can_act pc b x)) /\
  (leads pc a b -> idle pc b \/ safe (chained pc a b) = false) /\
  (leads pc b a -> idle pc a \/ leads pc a b \/ safe (chained pc b a) = false).
Proof.
  intros safe pu pc a b NR H. rewrite coexist_vals_eq in H by exact NR.
  apply andb_true_iff in H. destruct H as [D H].
  split; [apply no_common_state; apply differ_iff; exact D|].
  rewrite !leads_enables by exact NR. rewrite (differ_ro_sym pc b a).
  destruct (existsb (differ_ro pc a b) (seq 0 (nr pc))); cbn [orb] in H.
  - split; intros [C _]; discriminate.
  - rewrite <- !self_loop_iff.
    destruct (safe (chained pc a b)), (safe (chained pc b a)),
      (writeonly_exists pc), (self_loop pc a), (self_loop pc b), (enables pc a b), (enables pc b a);
      cbn in H; try discriminate; split; auto; intros [_ C]; discriminate.
Qed.

Lemma chained_views : forall pc a b, length a = nr pc + nw pc -> length b = nr pc + nw pc ->
  length (chained pc a b) = nr pc + nw pc /\
  (forall i, i < nr pc -> tested (chained pc a b) i = tested a i) /\
  (forall i, i < nr pc -> wck pc i = true -> assigned pc (chained pc a b) i = assigned pc b i).
Proof.
  intros pc a b La Lb. unfold chained.
  assert (LF : length (firstn (nr pc) a) = nr pc) by (rewrite firstn_length; lia).
  split; [rewrite app_length, LF, skipn_length; lia|]. split.
  - intros i Hi. unfold tested. rewrite app_nth1 by lia.
    rewrite <- (firstn_skipn (nr pc) a) at 2. rewrite app_nth1 by lia. reflexivity.
  - intros i Hi W. unfold assigned. fold (nr pc). rewrite app_nth2 by lia. rewrite LF.
    replace (nr pc + place pc i - nr pc) with (place pc i) by lia.
    rewrite <- (firstn_skipn (nr pc) b) at 2. rewrite app_nth2 by (rewrite firstn_length; lia).
    rewrite firstn_length. f_equal. lia.
Qed.

(** ** Invariance under renaming *)
Section Invariance.
Variable pc : pcsymm.
Hypothesis LO : laid_out pc.
Variable s : nat -> nat.
Hypothesis R : relinking pc s.
Variables a b a' b' : list nat.
Hypothesis Ta : through pc s a a'.
Hypothesis Tb : through pc s b b'.

Lemma ex_renamed : forall P : nat -> Prop,
  (exists i, i < nr pc /\ P (s i)) <-> (exists i, i < nr pc /\ P i).
Proof.
  intros P. split.
  - intros (i & Hi & H). exists (s i). split; auto. apply (relinking_keeps pc LO s R i Hi).
  - intros (i & Hi & H). destruct (relinking_surj pc LO s R i Hi) as (j & Hj & <-). eauto.
Qed.

Lemma acc_renamed : forall i, i < nr pc -> acc pc (s i) = acc pc i.
Proof. intros i Hi. apply (relinking_keeps pc LO s R i Hi). Qed.

Lemma bool_iff_eq : forall x y : bool, (x = true <-> y = true) -> x = y.
Proof. intros [] [] [H1 H2]; auto; symmetry; auto. Qed.

Lemma differ_renamed : existsb (differ pc a' b') (seq 0 (nr pc)) = existsb (differ pc a b) (seq 0 (nr pc)).
Proof.
  apply bool_iff_eq. rewrite !differ_iff. destruct Ta as [A1 _], Tb as [B1 _].
  rewrite <- (ex_renamed (fun i => visible (acc pc i) /\ tested a i <> tested b i)).
  split; intros (i & Hi & V & D); exists i; (split; [exact Hi|]).
  - rewrite acc_renamed by exact Hi. rewrite <- A1, <- B1 by exact Hi. auto.
  - rewrite acc_renamed in V by exact Hi. rewrite A1, B1 by exact Hi. auto.
Qed.

Lemma differ_ro_renamed : no_randomness pc ->
  existsb (differ_ro pc a' b') (seq 0 (nr pc)) = existsb (differ_ro pc a b) (seq 0 (nr pc)).
Proof.
  intros NR. apply bool_iff_eq. rewrite !differ_ro_iff by exact NR. destruct Ta as [A1 _], Tb as [B1 _].
  rewrite <- (ex_renamed (fun i => visible (acc pc i) /\ wck pc i = false /\ tested a i <> tested b i)).
  unfold wck.
  split; intros (i & Hi & V & W & D); exists i; (split; [exact Hi|]).
  - rewrite acc_renamed by exact Hi. rewrite <- A1, <- B1 by exact Hi. auto.
  - rewrite acc_renamed in V, W by exact Hi. rewrite A1, B1 by exact Hi. auto.
Qed.

Lemma enables_renamed : enables pc a' b' = enables pc a b.
Proof.
  apply bool_iff_eq. rewrite !enables_iff. destruct Ta as [_ A2], Tb as [B1 _]. split.
  - intros H i Hi W V. destruct (relinking_surj pc LO s R i Hi) as (j & Hj & <-).
    pose proof (acc_renamed j Hj) as E. unfold wck in *. rewrite E in W, V.
    rewrite <- A2, <- B1 by auto. apply H; auto.
  - intros H i Hi W V. rewrite A2, B1 by auto. pose proof (acc_renamed i Hi) as E.
    apply H.
    + apply (relinking_keeps pc LO s R i Hi).
    + unfold wck in *. rewrite E. exact W.
    + rewrite E. exact V.
Qed.

Lemma self_loop_renamed : self_loop pc a' = self_loop pc a.
Proof.
  apply bool_iff_eq. rewrite !self_loop_iff. unfold idle. destruct Ta as [A1 A2]. split.
  - intros H i Hi V W. destruct (relinking_surj pc LO s R i Hi) as (j & Hj & <-).
    pose proof (acc_renamed j Hj) as E. unfold acc in E. rewrite E in W, V.
    rewrite <- A2, <- A1; auto. apply writable_ck. exact W.
  - intros H i Hi V W. rewrite A2, A1; auto; [|apply writable_ck; exact W].
    pose proof (acc_renamed i Hi) as E. unfold acc in E. apply H.
    + apply (relinking_keeps pc LO s R i Hi).
    + rewrite E. exact V.
    + rewrite E. exact W.
Qed.
End Invariance.

Theorem coexist_renamed : forall safe fd pu pc s a b a' b', laid_out pc -> relinking pc s ->
  no_randomness pc -> fd = true ->
  through pc s a a' -> through pc s b b' ->
  coexist_vals safe fd pu pc a' b' = coexist_vals safe fd pu pc a b.
Proof.
  intros safe fd pu pc s a b a' b' LO R NR -> Ta Tb. rewrite !coexist_vals_eq by exact NR.
  rewrite (differ_renamed pc LO s R a b a' b' Ta Tb), (differ_ro_renamed pc LO s R a b a' b' Ta Tb NR).
  rewrite (enables_renamed pc LO s R a b a' b' Ta Tb), (enables_renamed pc LO s R b a b' a' Tb Ta).
  rewrite (self_loop_renamed pc LO s R a a' Ta), (self_loop_renamed pc LO s R b b' Tb). reflexivity.
Qed.

(** ** QuickTrim *)
Lemma represented_iff : forall net rep a,
  In a (represented_actions net rep) <-> a < actions_in net /\ representative_action_index net a = Some rep.
Proof.
  intros net rep a. unfold represented_actions. rewrite filter_In, in_seq, total_acts_eq. split.
  - intros [H1 H2]. split; [lia|]. destruct (representative_action_index net a); [|discriminate].
    apply Nat.eqb_eq in H2. congruence.
  - intros [H1 H2]. rewrite H2, Nat.eqb_refl. split; [lia|reflexivity].
Qed.

(** An action that survives the trimming coexists with the used action, and so do all renamings of
    the two. *)
Theorem quick_trim_sound : forall safe pu net cands act c, 
  (forall pc, In pc net -> laid_out pc) -> (forall pc, In pc net -> no_randomness pc) ->
  c < actions_in net -> representative_action_index net act = Some act -> act < actions_in net ->
  In c cands -> c <> act -> ~ In c (quick_trim safe true pu net cands act) ->
  forall i j, i < actions_in net -> j < actions_in net ->
    same_action_class net act i -> same_action_class net c j ->
    coexist_ck safe true pu net (act_of net i) (act_of net j) = true.
Proof.
  intros safe pu net cands act0 c LOs NRs Hc Hrep Hact Hin Hne Hnot i j Hi Hj Ci Cj.
  destruct (act_of_spec net i Hi) as (I1 & I2 & I3). destruct (act_of_spec net j Hj) as (J1 & J2 & J3).
  destruct (act_of_spec net act0 Hact) as (A1 & A2 & A3). destruct (act_of_spec net c Hc) as (C1 & C2 & C3).
  set (pi := act_pc (act_of net i)) in *.
  assert (Epi : act_pc (act_of net act0) = pi) by apply Ci.
  unfold coexist_ck. destruct (Nat.eqb_spec (act_pc (act_of net i)) (act_pc (act_of net j))) as [E|N];
    [cbn [negb]|reflexivity]. fold pi in E.
  set (pc := nth pi net pc0).
  assert (Hpc : In pc net) by (apply nth_In; exact I1).
  pose proof (LOs pc Hpc) as LO. pose proof (NRs pc Hpc) as NR.
  assert (Ec : act_pc (act_of net c) = pi) by (destruct Cj; congruence).
  fold pi. destruct (com_nth net pi I1) as (K1 & _). rewrite K1. fold pc.
  destruct Cj as [_ Cj]. rewrite Ec in Cj. fold pc in Cj. apply relinked_through in Cj.
  destruct Cj as (s & Rs & Ts).
  destruct (relinking_inverse pc LO s Rs) as (t & Rt & T1 & T2).
  (* undo the renaming on action i *)
  set (v := rename pc t (vals (act_of net i))).
  assert (Vi : valid pc (vals (act_of net i))) by (unfold pc; exact I2).
  assert (Tv : through pc t (vals (act_of net i)) v) by apply rename_through.
  assert (Vv : valid pc v).
  { apply through_valid with (s := t) (a := vals (act_of net i)); auto.
    - apply relinking_keeps; auto.
    - apply rename_length. }
  assert (Tv' : through pc s v (vals (act_of net i))).
  { destruct Tv as [X1 X2]. split.
    - intros x Hx. destruct (relinking_keeps pc LO s Rs x Hx) as [Y1 Y2]. rewrite X1 by exact Y1.
      rewrite T1 by exact Hx. reflexivity.
    - intros x Hx W. destruct (relinking_keeps pc LO s Rs x Hx) as [Y1 Y2]. rewrite X2.
      + rewrite T1 by exact Hx. reflexivity.
      + exact Y1.
      + unfold wck in *. rewrite Y2. exact W. }
  set (b := {| act_pc := pi; vals := v |}).
  destruct (id_of_spec net b I1 Vv) as (D1 & D2 & _).
  assert (Cb : same_action_class net act0 (id_of net b)).
  { split; [rewrite D2; exact Epi|]. rewrite D2. cbn [vals b]. rewrite Epi. fold pc.
    destruct Ci as [_ Ci]. rewrite Epi in Ci. fold pc in Ci.
    apply (relinked_trans pc LO _ (vals (act_of net i))); auto.
    apply relinked_through. exists t. split; auto. }
  assert (Rb : In (id_of net b) (represented_actions net act0)).
  { apply represented_iff. split; auto. rewrite <- Hrep. symmetry. apply representative_iff; auto.
    - rewrite Epi. exact LO.
    - rewrite D2. exact LO. }
  assert (CO : coexist_ck safe true pu net (act_of net (id_of net b)) (act_of net c) = true).
  { destruct (coexist_ck safe true pu net (act_of net (id_of net b)) (act_of net c)) eqn:CO; auto.
    exfalso. apply Hnot. unfold quick_trim. apply filter_In. split; auto.
    apply andb_true_iff. split; [apply negb_true_iff, Nat.eqb_neq; exact Hne|].
    apply existsb_exists. exists (id_of net b). rewrite CO. auto. }
  rewrite D2 in CO. unfold coexist_ck in CO. cbn [act_pc vals b] in CO. rewrite Ec, Nat.eqb_refl in CO.
  cbn [negb] in CO. rewrite K1 in CO. fold pc in CO.
  etransitivity; [|exact CO]. apply (coexist_renamed _ true pu pc s); auto.
Qed.
