From Coq Require Import List Arith Lia Bool.
From Verif Require Import FinLib UniModel UniSpec UniProofs LivelockSpec LivelockProofs LivelockProofs2
  TileSpec SynthModel SynthSpec.
Import ListNotations.

Lemma filter_length_le : forall A (f : A -> bool) l, length (filter f l) <= length l.
Proof. induction l; simpl; auto. destruct (f a); simpl; lia. Qed.

Section Gen.
Variables (legits : list (nat * nat)) (M : nat).
Hypothesis Hrange : forall a b, In (a, b) legits -> a < M /\ b < M.
Let L := legit_matrix legits.

Lemma L_spec : forall a b, L a b = true <-> legit legits a b.
Proof.
  intros a b. unfold L, legit_matrix, legit. rewrite existsb_exists. split.
  - intros ([x y] & H & E). simpl in E. apply andb_true_iff in E. destruct E as [E1 E2].
    apply Nat.eqb_eq in E1, E2. subst. auto.
  - intros H. exists (a, b). simpl. rewrite !Nat.eqb_refl. auto.
Qed.

(** ** Pruning *)
Definition pinv (Lp : matrix) : Prop :=
  (forall a b, Lp a b = true -> legit legits a b) /\
  (forall a b, legit legits a b -> alive legits b -> Lp a b = true).

Lemma alive_step : forall e k, (forall k, legit legits (e k) (e (S k))) -> alive legits (e k).
Proof.
  intros e k H. exists (fun i => e (k + i)). split; [f_equal; lia|].
  intros i. replace (k + S i) with (S (k + i)) by lia. apply H.
Qed.

Lemma prune_vertex_inv : forall Lp m i, pinv Lp -> pinv (fst (prune_vertex M (Lp, m) i)).
Proof.
  intros Lp m i [H1 H2]. unfold prune_vertex.
  destruct (existsb _ _) eqn:E; simpl; [split; auto|]. split.
  - intros a b. destruct (b =? i); [discriminate|]. auto.
  - intros a b Hab Hal. destruct (Nat.eqb_spec b i) as [->|]; auto. exfalso.
    destruct Hal as (e & E0 & He).
    assert (Lp i (e 1) = true).
    { rewrite <- E0. apply H2; auto. apply alive_step; auto. }
    assert (existsb (fun j => Lp i j) (seq 0 M) = true); [|congruence].
    apply existsb_exists. exists (e 1). split; auto. apply in_seq.
    destruct (Hrange (e 0) (e 1) (He 0)). lia.
Qed.

Definition entries (Lp : matrix) : list (nat * nat) :=
  filter (fun p => Lp (fst p) (snd p)) (list_prod (seq 0 M) (seq 0 M)).

Lemma filter_le : forall A (f g : A -> bool) l, (forall x, f x = true -> g x = true) ->
  length (filter f l) <= length (filter g l) /\
  ((exists x, In x l /\ f x = false /\ g x = true) -> length (filter f l) < length (filter g l)).
Proof.
  induction l as [|x l IH]; intros H; simpl.
  - split; auto. intros (x & [] & _).
  - destruct (IH H) as [I1 I2]. split.
    + destruct (f x) eqn:Ef; [rewrite (H x Ef); simpl; lia|]. destruct (g x); simpl; lia.
    + intros (y & [<-|Hy] & F & G).
      * rewrite F, G. simpl. lia.
      * assert (length (filter f l) < length (filter g l)) by (apply I2; eauto).
        destruct (f x) eqn:Ef; [rewrite (H x Ef); simpl; lia|]. destruct (g x); simpl; lia.
Qed.

Definition le_matrix (A B : matrix) : Prop := forall a b, A a b = true -> B a b = true.

Lemma prune_pass : forall l st, pinv (fst st) -> (forall i, In i l -> i < M) ->
  let st' := fold_left (prune_vertex M) l st in
  pinv (fst st') /\ le_matrix (fst st') (fst st) /\
  (snd st = true -> snd st' = true) /\
  (snd st' = true -> snd st = false -> length (entries (fst st')) < length (entries (fst st))) /\
  (snd st' = false -> (forall a b, a < M -> fst st' a b = fst st a b) /\
     forall i, In i l -> (exists j, j < M /\ fst st i j = true) \/ forall a, a < M -> fst st a i = false).
Proof.
  induction l as [|i l IH]; intros [Lp m] HI Hl; cbn [fold_left].
  - simpl. split; auto. split; [intros a b; auto|]. split; auto. split; [congruence|].
    intros _. split; auto. intros i [].
  - pose proof (prune_vertex_inv Lp m i HI) as HI'.
    destruct (IH (prune_vertex M (Lp, m) i) HI') as (A1 & A2 & A3 & A4 & A5).
    { intros x Hx. apply Hl. right; auto. }
    set (st' := fold_left (prune_vertex M) l (prune_vertex M (Lp, m) i)) in *.
    assert (Hle : le_matrix (fst (prune_vertex M (Lp, m) i)) Lp).
    { unfold prune_vertex. destruct (existsb _ _); simpl; intros a b; auto.
      destruct (b =? i); [discriminate|auto]. }
    assert (Hmle : le_matrix (fst st') Lp) by (intros a b H; apply Hle, A2, H).
    cbn [fst snd] in *. split; auto. split; auto.
    assert (Hm : m = true -> snd (prune_vertex M (Lp, m) i) = true).
    { intros ->. unfold prune_vertex. destruct (existsb _ _); auto. }
    split; [auto|]. split.
    + intros H1 H2. subst m. destruct (snd (prune_vertex M (Lp, false) i)) eqn:E.
      * unfold prune_vertex in E, A2, Hle. destruct (existsb (fun j => Lp i j) (seq 0 M)); [discriminate|].
        simpl in E, A2, Hle. apply existsb_exists in E. destruct E as (j & Hj & E).
        apply in_seq in Hj. apply filter_le; [intros [a b]; apply Hmle|].
        exists (j, i). split; [apply in_prod; apply in_seq; [lia|]; split; [lia|]; apply Hl; left; auto|].
        cbn [fst snd]. split; auto. destruct (fst st' j i) eqn:F; auto. apply A2 in F.
        rewrite Nat.eqb_refl in F. discriminate.
      * specialize (A4 H1 eq_refl). eapply Nat.lt_le_trans; [exact A4|].
        apply filter_le. intros [a b]. apply Hle.
    + intros H. destruct m; [rewrite A3 in H; auto; discriminate|].
      assert (E : snd (prune_vertex M (Lp, false) i) = false).
      { destruct (snd (prune_vertex M (Lp, false) i)); auto. rewrite A3 in H; auto. }
      destruct (A5 H) as [B1 B2].
      assert (HV : forall a b, a < M -> fst (prune_vertex M (Lp, false) i) a b = Lp a b).
      { unfold prune_vertex in *. destruct (existsb (fun j => Lp i j) (seq 0 M)) eqn:F; auto.
        simpl in E |- *. intros a b Ha. destruct (Nat.eqb_spec b i) as [->|]; auto.
        destruct (Lp a i) eqn:G; auto. rewrite <- E. apply existsb_exists.
        exists a. split; auto. apply in_seq. lia. }
      split; [intros a b Ha; rewrite B1, HV by auto; auto|].
      intros x [<-|Hx].
      * unfold prune_vertex in E. destruct (existsb (fun j => Lp i j) (seq 0 M)) eqn:F.
        -- left. apply existsb_exists in F. destruct F as (j & Hj & F). apply in_seq in Hj. exists j. split; auto; lia.
        -- right. simpl in E. intros a Ha. destruct (Lp a i) eqn:G; auto. rewrite <- E. symmetry.
           apply existsb_exists. exists a. split; auto. apply in_seq. lia.
      * destruct (B2 x Hx) as [(j & Hj & G)|G].
        -- left. exists j. split; auto.
        -- right. intros a Ha. rewrite <- HV by auto. auto.
Qed.

Lemma prune_spec : forall fuel Lp, pinv Lp -> length (entries Lp) < fuel ->
  exists Lp', prune fuel M Lp = Some Lp' /\ pinv Lp' /\
    forall i, i < M -> (exists j, j < M /\ Lp' i j = true) \/ forall a, a < M -> Lp' a i = false.
Proof.
  induction fuel as [|fuel IH]; intros Lp HI HF; [lia|]. cbn [prune].
  destruct (prune_pass (seq 0 M) (Lp, false) HI) as (A1 & A2 & A3 & A4 & A5).
  { intros i Hi. apply in_seq in Hi. lia. }
  destruct (fold_left (prune_vertex M) (seq 0 M) (Lp, false)) as [Lp' m]. cbn [fst snd] in *.
  destruct m.
  - apply IH; auto. specialize (A4 eq_refl eq_refl). lia.
  - exists Lp'. split; auto. split; auto. destruct (A5 eq_refl) as [B1 B2].
    intros i Hi. destruct (B2 i) as [(j & Hj & G)|G]; [apply in_seq; lia| |].
    + left. exists j. split; auto. rewrite B1; auto.
    + right. intros a Ha. rewrite B1; auto.
Qed.

(** The pruned matrix: legitimate pairs leading to a value that can go on for ever. *)
Lemma prune_exact : exists Lp, prune (M * M + 1) M L = Some Lp /\
  forall a b, a < M -> (Lp a b = true <-> legit legits a b /\ alive legits b).
Proof.
  destruct (prune_spec (M * M + 1) L) as (Lp & E & [H1 H2] & H3).
  - split.
    + intros a b. apply L_spec.
    + intros a b H _. apply L_spec. auto.
  - unfold entries. eapply Nat.le_lt_trans; [apply filter_length_le|].
    rewrite prod_length, seq_length. lia.
  - exists Lp. split; auto. intros a b Ha. split.
    + intros H. split; auto.
      set (next := fun x => match find (fun j => Lp x j) (seq 0 M) with Some j => j | None => x end).
      assert (HN : forall x, x < M -> (exists y, y < M /\ Lp y x = true) ->
                Lp x (next x) = true /\ next x < M).
      { intros x Hx (y & Hy & Hyx). unfold next.
        destruct (find (fun j => Lp x j) (seq 0 M)) eqn:F.
        - apply find_some in F. destruct F as [F1 F2]. apply in_seq in F1. split; auto. lia.
        - destruct (H3 x Hx) as [(j & Hj & G)|G].
          + pose proof (find_none _ _ F j ltac:(apply in_seq; lia)). congruence.
          + rewrite G in Hyx by auto. discriminate. }
      exists (fun k => Nat.iter k next b). split; auto.
      assert (Hb : b < M) by (destruct (Hrange a b (H1 a b H)); auto).
      assert (HI : forall k, Nat.iter k next b < M /\ exists y, y < M /\ Lp y (Nat.iter k next b) = true).
      { induction k as [|k [I1 I2]]; [simpl; split; eauto|]. simpl.
        destruct (HN _ I1 I2) as [N1 N2]. split; auto. exists (Nat.iter k next b). auto. }
      intros k. destruct (HI k) as [I1 I2]. simpl. apply H1. apply HN; auto.
    + intros [Hl Hal]. auto.
Qed.

(** ** Breadth-first tree *)
Section Bfs.
Variables (gamma : nat) (Lp : matrix).
Hypothesis Hgamma : gamma < M.

Definition tau_of (tau : list nat) (i : nat) : nat := nth i tau 0.
Definition assigned (tau : list nat) (i : nat) : Prop := i = gamma \/ tau_of tau i <> i.
Definition unassigned_ct (tau : list nat) : nat :=
  length (filter (fun i => negb (i =? gamma) && (nth i tau 0 =? i)) (seq 0 M)).

Definition binv (tau queue : list nat) : Prop :=
  length tau = M /\ tau_of tau gamma = gamma /\
  (forall i, i < M -> assigned tau i -> i <> gamma ->
     tau_of tau i < M /\ Lp i (tau_of tau i) = true /\ assigned tau (tau_of tau i)) /\
  (forall i, i < M -> assigned tau i -> exists n, Nat.iter n (tau_of tau) i = gamma) /\
  (forall j, In j queue -> j < M /\ assigned tau j).

Lemma iter_S_r : forall (f : nat -> nat) n x, Nat.iter (S n) f x = Nat.iter n f (f x).
Proof. induction n; intros; simpl; auto. f_equal. apply IHn. Qed.

(** Assigning a fresh vertex keeps the invariant. *)
Lemma binv_assign : forall tau queue i j, binv tau queue -> i < M -> j < M -> i <> gamma ->
  tau_of tau i = i -> assigned tau j -> Lp i j = true ->
  binv (upd tau i j) (queue ++ [i]) /\
  (forall x, assigned tau x -> assigned (upd tau i j) x) /\
  unassigned_ct (upd tau i j) + 1 = unassigned_ct tau /\
  assigned (upd tau i j) i.
Proof.
  intros tau queue i j (B1 & B2 & B3 & B4 & B5) Hi Hj Ng Ti Aj HL.
  assert (Nij : i <> j).
  { intros ->. destruct Aj; congruence. }
  assert (T : forall x, tau_of (upd tau i j) x = if x =? i then j else tau_of tau x).
  { intros x. unfold tau_of. rewrite nth_upd. rewrite B1.
    replace (i <? M) with true by (symmetry; apply Nat.ltb_lt; auto). rewrite andb_true_r. auto. }
  assert (Ai : ~ assigned tau i) by (intros [H|H]; congruence).
  assert (Keep : forall x, assigned tau x -> tau_of (upd tau i j) x = tau_of tau x).
  { intros x Hx. rewrite T. destruct (Nat.eqb_spec x i); auto. subst. contradiction. }
  assert (KA : forall x, assigned tau x -> assigned (upd tau i j) x).
  { intros x Hx. destruct Hx as [->|Hx]; [left; auto|]. right. rewrite Keep; auto. right; auto. }
  assert (NA : assigned (upd tau i j) i).
  { right. rewrite T, Nat.eqb_refl. auto. }
  assert (New : forall x, assigned (upd tau i j) x -> x = i \/ assigned tau x).
  { intros x [->|Hx]; [right; left; auto|]. rewrite T in Hx.
    destruct (Nat.eqb_spec x i); auto. right. right. auto. }
  assert (It : forall n x, x < M -> assigned tau x -> Nat.iter n (tau_of (upd tau i j)) x = Nat.iter n (tau_of tau) x).
  { induction n; intros x Hx Ax; auto. rewrite !iter_S_r. rewrite Keep by auto.
    destruct (Nat.eq_dec x gamma) as [->|Nx].
    - rewrite B2. apply IHn; auto.
    - destruct (B3 x Hx Ax Nx) as (C1 & C2 & C3). apply IHn; auto. }
  split; [|split; [auto|split; [|auto]]].
  - split; [rewrite upd_length; auto|]. split; [rewrite Keep; auto; left; auto|]. split; [|split].
    + intros x Hx Ax Nx. destruct (Nat.eq_dec x i) as [->|Ni].
      * rewrite T, Nat.eqb_refl. auto.
      * destruct (New x Ax) as [|Ax']; [contradiction|]. rewrite Keep by auto.
        destruct (B3 x Hx Ax' Nx) as (C1 & C2 & C3). auto.
    + intros x Hx Ax. destruct (Nat.eq_dec x i) as [->|Ni].
      * destruct (B4 j Hj Aj) as (n & E). exists (S n). rewrite iter_S_r, T, Nat.eqb_refl.
        rewrite It; auto.
      * destruct (New x Ax) as [|Ax']; [contradiction|]. destruct (B4 x Hx Ax') as (n & E).
        exists n. rewrite It; auto.
    + intros y Hy. apply in_app_iff in Hy. destruct Hy as [Hy|[<-|[]]]; auto.
      destruct (B5 y Hy). auto.
  - unfold unassigned_ct.
    assert (HG : forall l, NoDup l -> In i l ->
      length (filter (fun x => negb (x =? gamma) && (nth x (upd tau i j) 0 =? x)) l) + 1 =
      length (filter (fun x => negb (x =? gamma) && (nth x tau 0 =? x)) l)).
    { assert (HO : forall x, x <> i -> (nth x (upd tau i j) 0 =? x) = (nth x tau 0 =? x)).
      { intros x Hx. rewrite nth_upd_other; auto. }
      induction l as [|x l IH]; intros HN Hin; [destruct Hin|]. inversion HN; subst.
      destruct (Nat.eq_dec x i) as [->|Nx].
      - assert (E : filter (fun x => negb (x =? gamma) && (nth x (upd tau i j) 0 =? x)) l =
                    filter (fun x => negb (x =? gamma) && (nth x tau 0 =? x)) l).
        { apply filter_ext_in. intros y Hy. rewrite HO; auto. intros ->. contradiction. }
        simpl. rewrite E. unfold tau_of in Ti. rewrite nth_upd_same by lia. rewrite Ti, Nat.eqb_refl.
        replace (j =? i) with false by (symmetry; apply Nat.eqb_neq; auto).
        replace (i =? gamma) with false by (symmetry; apply Nat.eqb_neq; auto). simpl. lia.
      - simpl. rewrite HO by auto. destruct Hin as [->|Hin]; [congruence|].
        specialize (IH H2 Hin). destruct (_ && _); simpl; lia. }
    apply HG; [apply seq_NoDup|apply in_seq; lia].
Qed.

Lemma visit_loop : forall j l tau queue, j < M -> (forall i, In i l -> i < M) -> binv tau queue ->
  assigned tau j ->
  let '(tau', q') := fold_left (fun st i =>
    let '(tau, queue) := st in
    if negb (i =? gamma) && (nth i tau 0 =? i) && Lp i j
    then (upd tau i j, queue ++ [i]) else (tau, queue)) l (tau, queue) in
  binv tau' q' /\ (forall x, assigned tau x -> assigned tau' x) /\
  unassigned_ct tau' + length q' = unassigned_ct tau + length queue /\
  (forall x, x < M -> assigned tau' x -> assigned tau x \/ In x q') /\
  incl queue q' /\
  (forall i, In i l -> Lp i j = true -> assigned tau' i).
Proof.
  intros j. induction l as [|i l IH]; intros tau queue Hj Hl HB HA.
  { simpl. split; auto. split; auto. split; auto. split; auto. split; [intros x; auto|]. intros i []. }
  cbn [fold_left].
  destruct (negb (i =? gamma) && (nth i tau 0 =? i) && Lp i j) eqn:E.
  - apply andb_true_iff in E. destruct E as [E E3]. apply andb_true_iff in E. destruct E as [E1 E2].
    apply negb_true_iff, Nat.eqb_neq in E1. apply Nat.eqb_eq in E2.
    destruct (binv_assign tau queue i j HB) as (N1 & N2 & N3 & N4); auto; [apply Hl; left; auto|].
    specialize (IH (upd tau i j) (queue ++ [i]) Hj (fun x H => Hl x (or_intror H)) N1 (N2 j HA)).
    destruct (fold_left _ l (upd tau i j, queue ++ [i])) as [tau' q'].
    destruct IH as (I1 & I2 & I3 & I4 & I5 & I6).
    split; auto. split; auto. split; [rewrite app_length in I3; simpl in I3; lia|].
    split; [|split].
    + intros x Hx Ax. destruct (I4 x Hx Ax) as [Ax'|]; auto.
      destruct (Nat.eq_dec x i) as [->|Nx].
      * right. apply I5. apply in_or_app. right. left. auto.
      * left. destruct Ax' as [->|Ax']; [left; auto|]. right.
        unfold tau_of in *. rewrite nth_upd_other in Ax' by auto. auto.
    + intros x Hx. apply I5. apply in_or_app. auto.
    + intros x [<-|Hx] HL; auto.
  - specialize (IH tau queue Hj (fun x H => Hl x (or_intror H)) HB HA).
    destruct (fold_left _ l (tau, queue)) as [tau' q'].
    destruct IH as (I1 & I2 & I3 & I4 & I5 & I6).
    split; auto. split; auto. split; auto. split; auto. split; auto.
    intros x [<-|Hx] HL; auto. apply I2.
    destruct (Nat.eq_dec i gamma) as [->|Ng]; [left; auto|].
    right. unfold tau_of. intros Ht. rewrite Ht, Nat.eqb_refl, HL in E.
    replace (i =? gamma) with false in E by (symmetry; apply Nat.eqb_neq; auto). discriminate.
Qed.

Definition cinv (tau queue : list nat) : Prop :=
  forall j, j < M -> assigned tau j -> ~ In j queue ->
    forall i, i < M -> Lp i j = true -> assigned tau i.

Lemma bfs_spec : forall fuel tau queue, binv tau queue -> cinv tau queue ->
  unassigned_ct tau + length queue < fuel ->
  exists tau', bfs fuel M gamma Lp tau queue = Some tau' /\ binv tau' [] /\ cinv tau' [].
Proof.
  induction fuel as [|fuel IH]; intros tau queue HB HC HF; [lia|]. cbn [bfs].
  destruct queue as [|j queue].
  { exists tau. auto. }
  assert (Hj : j < M /\ assigned tau j) by (apply HB; left; auto). destruct Hj as [Hj Aj].
  assert (HB' : binv tau queue).
  { destruct HB as (B1 & B2 & B3 & B4 & B5). split; auto. split; auto. split; auto. split; auto.
    intros x Hx. apply B5. right; auto. }
  unfold visit.
  pose proof (visit_loop j (seq 0 M) tau queue Hj) as HV.
  specialize (HV ltac:(intros i Hi; apply in_seq in Hi; lia) HB' Aj).
  destruct (fold_left _ (seq 0 M) (tau, queue)) as [tau' q'].
  destruct HV as (I1 & I2 & I3 & I4 & I5 & I6). apply IH; auto.
  - intros x Hx Ax Nx i Hi HL. destruct (I4 x Hx Ax) as [Ax'|]; [|contradiction].
    destruct (Nat.eq_dec x j) as [->|Nj]; [apply I6; auto; apply in_seq; lia|].
    apply I2. apply (HC x Hx Ax'); auto. intros [->|Hin]; [congruence|]. apply Nx, I5, Hin.
  - simpl in HF. lia.
Qed.

Lemma bfs_total : exists tau, bfs (M + 2) M gamma Lp (seq 0 M) [gamma] = Some tau /\
  length tau = M /\ tau_of tau gamma = gamma /\
  (forall i, i < M -> tau_of tau i < M) /\
  (forall i, i < M -> tau_of tau i <> i -> Lp i (tau_of tau i) = true) /\
  (forall i, i < M -> tau_of tau i <> i -> exists n, Nat.iter n (tau_of tau) i = gamma) /\
  (forall i, i < M -> i <> gamma -> tau_of tau i = i -> ~ path (fun a b => a < M /\ b < M /\ Lp a b = true) i gamma).
Proof.
  assert (T0 : forall i, i < M -> tau_of (seq 0 M) i = i) by (intros; unfold tau_of; rewrite seq_nth; auto).
  destruct (bfs_spec (M + 2) (seq 0 M) [gamma]) as (tau & E & (B1 & B2 & B3 & B4 & B5) & C).
  - split; [apply seq_length|]. split; [auto|]. split; [|split].
    + intros i Hi [->|Ai] Ni; [congruence|]. rewrite T0 in Ai by auto. congruence.
    + intros i Hi [->|Ai]; [exists 0; auto|]. rewrite T0 in Ai by auto. congruence.
    + intros j [<-|[]]. split; auto. left; auto.
  - intros j Hj [->|Aj] Nj; [exfalso; apply Nj; left; auto|]. rewrite T0 in Aj by auto. congruence.
  - unfold unassigned_ct. pose proof (filter_length_le _ (fun i => negb (i =? gamma) && (nth i (seq 0 M) 0 =? i)) (seq 0 M)) as HL.
    rewrite seq_length in HL. cbn [length]. lia.
  - exists tau. split; auto. split; auto. split; auto.
    assert (HG : forall i, i < M -> tau_of tau i <> i -> tau_of tau i < M /\ Lp i (tau_of tau i) = true).
    { intros i Hi Ni. destruct (B3 i Hi (or_intror Ni)) as (C1 & C2 & C3); auto. intros ->. congruence. }
    split; [|split; [|split]].
    + intros i Hi. destruct (Nat.eq_dec (tau_of tau i) i) as [->|Ni]; auto. apply HG; auto.
    + intros i Hi Ni. apply HG; auto.
    + intros i Hi Ni. apply B4; auto. right; auto.
    + intros i Hi Ni Ti Hp.
      assert (HA : forall a b, path (fun a b => a < M /\ b < M /\ Lp a b = true) a b ->
         assigned tau b -> assigned tau a).
      { intros a b Hab. induction Hab as [a b (Ha & Hb & H)|a b c (Ha & Hb & H) _ IHp]; intros Ac.
        - apply (C b Hb Ac); auto.
        - apply (C b Hb (IHp Ac)); auto. }
      destruct (HA i gamma Hp (or_introl eq_refl)); congruence.
Qed.
End Bfs.

(** ** The whole generator *)
Lemma find_gamma_spec : forall g, find_gamma L M = Some g -> root legits g /\ g < M.
Proof.
  unfold find_gamma. intros g H.
  assert (HG : forall n s g, find (fun i => L i i) (seq s n) = Some g ->
     s <= g < s + n /\ L g g = true /\ forall x, s <= x < g -> L x x = false).
  { induction n; intros s g' Hf; simpl in Hf; [discriminate|]. destruct (L s s) eqn:E.
    - injection Hf as <-. repeat split; auto; try lia; intros; lia.
    - apply IHn in Hf. destruct Hf as (F1 & F2 & F3). repeat split; auto; try lia.
      intros x Hx. destruct (Nat.eq_dec x s) as [->|]; auto. apply F3. lia. }
  apply HG in H. destruct H as (H1 & H2 & H3). split; [|lia]. split; [apply L_spec; auto|].
  intros x Hx Hl. apply L_spec in Hl. rewrite H3 in Hl; [discriminate|lia].
Qed.

Lemma find_gamma_none : find_gamma L M = None <-> forall x, ~ legit legits x x.
Proof.
  unfold find_gamma. split.
  - intros H x Hx. pose proof (Hrange x x Hx). 
    pose proof (find_none _ _ H x ltac:(apply in_seq; lia)) as E. apply L_spec in Hx. simpl in E. congruence.
  - intros H. destruct (find _ _) eqn:E; auto. apply find_some in E. destruct E as [_ E].
    apply L_spec in E. destruct (H n E).
Qed.

Lemma path_alive : forall x g, legit legits g g -> path (legit legits) x g -> alive legits x.
Proof.
  intros x g Hg Hp. induction Hp as [x y Hxy|x y z Hxy _ IH].
  - exists (fun k => match k with 0 => x | S _ => y end). split; auto. intros [|k]; auto.
  - destruct (IH Hg) as (e & E0 & He).
    exists (fun k => match k with 0 => x | S k' => e k' end). split; auto.
    intros [|k]; [rewrite E0; auto|auto].
Qed.

Lemma root_alive : forall g, legit legits g g -> alive legits g.
Proof. intros g H. exists (fun _ => g). auto. Qed.

(** Everything the proofs need about the generated actions, in terms of a parent function. *)
Lemma generate_spec : forall acts, generate legits M = Some acts ->
  (acts = [] /\ forall x, ~ legit legits x x) \/
  exists g (tau : nat -> nat), root legits g /\ g < M /\ tau g = g /\
    (forall i, i < M -> tau i < M) /\
    (forall i k c, In (i, k, c) acts <->
       i < M /\ k < M /\ c = tau i /\ c <> k /\ ~ (legit legits i k /\ alive legits k)) /\
    (forall i, i < M -> exists n, Nat.iter n tau i = g) /\
    (forall i, i < M -> (legit legits i (tau i) /\ alive legits (tau i) /\ path (legit legits) i g) \/
       (tau i = g /\ ~ path (legit legits) i g)) /\
    (forall i k, i < M -> (legit legits i k /\ alive legits k) \/ ~ (legit legits i k /\ alive legits k)).
Proof.
  intros acts H. unfold generate in H. fold L in H.
  destruct (find_gamma L M) as [g|] eqn:Eg.
  2:{ left. injection H as <-. split; auto. apply find_gamma_none; auto. }
  right. apply find_gamma_spec in Eg. destruct Eg as [Hroot Hg].
  destruct prune_exact as (Lp & EP & HP). rewrite EP in H.
  destruct (bfs_total g Lp Hg) as (tau & EB & T1 & T2 & T3 & T4 & T5 & T6). rewrite EB in H.
  injection H as <-.
  set (tau' := fun i => if i <? M then (if tau_of tau i =? i then g else tau_of tau i) else i).
  assert (HT : forall i, i < M -> nth i (finish_tau M g tau) 0 = tau' i).
  { intros i Hi. unfold finish_tau, tau'.
    rewrite (nth_indep _ 0 ((fun i => if nth i tau 0 =? i then g else nth i tau 0) 0))
      by (rewrite map_length, seq_length; auto).
    rewrite (map_nth (fun i => if nth i tau 0 =? i then g else nth i tau 0)).
    rewrite seq_nth by auto. simpl plus. apply Nat.ltb_lt in Hi. rewrite Hi. reflexivity. }
  assert (HT' : forall i, i < M -> tau' i = if tau_of tau i =? i then g else tau_of tau i).
  { intros i Hi. unfold tau'. apply Nat.ltb_lt in Hi. rewrite Hi. auto. }
  assert (Hgg : legit legits g g) by apply Hroot.
  exists g, tau'. split; auto. split; auto. split.
  { rewrite HT' by auto. rewrite T2, Nat.eqb_refl. auto. }
  split.
  { intros i Hi. rewrite HT' by auto. destruct (tau_of tau i =? i); auto. }
  split; [|split; [|split]].
  - intros i k c. unfold tau_actions. rewrite in_flat_map. split.
    + intros (i' & Hi' & H). apply in_flat_map in H. destruct H as (k' & Hk' & H).
      apply in_seq in Hi', Hk'. destruct (negb (Lp i' k') && negb (nth i' (finish_tau M g tau) 0 =? k')) eqn:E; [|destruct H].
      destruct H as [Heq|[]]. injection Heq as <- <- <-.
      apply andb_true_iff in E. destruct E as [E1 E2]. apply negb_true_iff in E1, E2.
      apply Nat.eqb_neq in E2. rewrite HT in * by lia.
      split; [lia|]. split; [lia|]. split; auto. split; auto.
      intros Hl. apply HP in Hl; [congruence|lia].
    + intros (Hi & Hk & -> & Hne & Hnl). exists i. split; [apply in_seq; lia|].
      apply in_flat_map. exists k. split; [apply in_seq; lia|]. rewrite HT by auto.
      destruct (Lp i k) eqn:E.
      { apply HP in E; auto. contradiction. }
      apply Nat.eqb_neq in Hne. rewrite Hne. left. auto.
  - intros i Hi. destruct (Nat.eq_dec (tau_of tau i) i) as [E|E].
    + exists 1. simpl. rewrite HT' by auto. rewrite E, Nat.eqb_refl. auto.
    + destruct (T5 i Hi E) as (n & En). revert i Hi E En. induction n; intros i Hi E En.
      * simpl in En. subst. exists 0. auto.
      * rewrite iter_S_r in En. destruct (Nat.eq_dec (tau_of tau (tau_of tau i)) (tau_of tau i)) as [E'|E'].
        -- exists 2. rewrite !iter_S_r. simpl. rewrite (HT' i) by auto.
           apply Nat.eqb_neq in E. rewrite E. rewrite HT' by auto. rewrite E', Nat.eqb_refl. auto.
        -- destruct (IHn _ (T3 i Hi) E' En) as (m & Em). exists (S m). rewrite iter_S_r.
           rewrite (HT' i) by auto. apply Nat.eqb_neq in E. rewrite E. auto.
  - intros i Hi. rewrite HT' by auto. destruct (Nat.eqb_spec (tau_of tau i) i) as [E|E].
    + destruct (Nat.eq_dec i g) as [->|Ng].
      * left. split; auto. split; [apply root_alive; auto|apply path_one; auto].
      * right. split; auto. intros Hp. apply (T6 i Hi Ng E).
        assert (HPP : forall a b, path (legit legits) a b -> b = g ->
           path (fun a b => a < M /\ b < M /\ Lp a b = true) a b).
        { intros a b Hab. induction Hab as [a b Hxy|a b c Hxy Hbc IH]; intros ->.
          - apply path_one. destruct (Hrange _ _ Hxy). repeat split; auto. apply HP; auto.
            split; auto. apply root_alive; auto.
          - apply path_more with b; auto. destruct (Hrange _ _ Hxy). repeat split; auto.
            apply HP; auto. split; auto. eapply path_alive; eauto. }
        apply HPP; auto.
    + left. assert (HL : legit legits i (tau_of tau i) /\ alive legits (tau_of tau i)) by (apply HP; auto).
      split; [tauto|]. split; [tauto|].
      destruct (T5 i Hi E) as (n & En). clear HL. revert i Hi E En. induction n; intros i Hi E En.
      * simpl in En. subst. congruence.
      * rewrite iter_S_r in En.
        assert (HL : legit legits i (tau_of tau i)) by (apply HP; auto).
        destruct (Nat.eq_dec (tau_of tau (tau_of tau i)) (tau_of tau i)) as [E'|E'].
        -- assert (Hfix : forall m, Nat.iter m (tau_of tau) (tau_of tau i) = tau_of tau i).
           { induction m; auto. rewrite iter_S_r, E'. auto. }
           rewrite Hfix in En. apply path_one. rewrite <- En. auto.
        -- apply path_more with (tau_of tau i); auto.
  - intros i k Hi. destruct (Lp i k) eqn:E.
    + left. apply HP; auto.
    + right. intros H. apply HP in H; auto. congruence.
Qed.

Lemma generate_total : exists acts, generate legits M = Some acts.
Proof.
  unfold generate. fold L. destruct (find_gamma L M) as [g|] eqn:Eg; [|eauto].
  apply find_gamma_spec in Eg. destruct Eg as [_ Hg].
  destruct prune_exact as (Lp & EP & HP). rewrite EP.
  destruct (bfs_total g Lp Hg) as (tau & EB & _). rewrite EB. eauto.
Qed.

(** ** Properties *)
Lemma gen_range : forall acts, generate legits M = Some acts ->
  forall a b c, In (a, b, c) acts -> a < M /\ b < M /\ c < M.
Proof.
  intros acts H a b c Hin. destruct (generate_spec acts H) as [[-> _]|(g & tau & _ & Hg & _ & HT & HA & _)].
  - destruct Hin.
  - apply HA in Hin. destruct Hin as (H1 & H2 & -> & _). auto.
Qed.

Lemma gen_terminates : forall acts, generate legits M = Some acts ->
  livelock_free (acts_protocol acts) M.
Proof.
  intros acts H N HL. pose proof (gen_range acts H) as HR.
  destruct (generate_spec acts H) as [[-> _]|(g & tau & Hroot & Hg & Tg & HT & HA & HI & _)].
  { destruct HL as (e & _ & _ & St). destruct (St 0) as (p & a & b & c & _ & _ & [] & _). }
  assert (HD : deterministic (acts_protocol acts)).
  { intros a b c d H1 H2. apply HA in H1, H2. destruct H1 as (_ & _ & -> & _), H2 as (_ & _ & -> & _). auto. }
  assert (HM : M <> 0) by lia.
  assert (HF : Forall (act_range M) acts).
  { apply Forall_forall. intros [[a b] c] Hin. apply HR in Hin. exact Hin. }
  set (t := ppgfun_of_acts acts M).
  assert (Hok : table_ok M t) by (apply ppgfun_of_acts_ok; auto).
  assert (HP : forall a b c, table_protocol M t a b c <-> In (a, b, c) acts)
    by (intros; apply ppgfun_of_acts_spec; auto).
  assert (SD : self_disabling (table_protocol M t)).
  { intros a b c d H1 H2. apply HP, HA in H1, H2.
    destruct H1 as (_ & _ & -> & _), H2 as (_ & _ & -> & Hne & _). congruence. }
  assert (HL' : livelock_on (table_protocol M t) M N).
  { eapply livelock_on_ext; [|exact HL]. intros a b c Hin. apply HP. auto. }
  assert (HB : exists B, forall i n, i < M -> B <= n -> Nat.iter n tau i = g).
  { assert (HK : forall K, K <= M -> exists B, forall i n, i < K -> B <= n -> Nat.iter n tau i = g).
    { assert (Hfix : forall n, Nat.iter n tau g = g).
      { induction n; auto. rewrite iter_S_r, Tg. auto. }
      assert (Hadd : forall m n x, Nat.iter (m + n) tau x = Nat.iter m tau (Nat.iter n tau x)).
      { induction m; intros; simpl; auto. }
      induction K as [|K IHK]; intros HK; [exists 0; intros; lia|].
      destruct IHK as (B & HB); [lia|]. destruct (HI K ltac:(lia)) as (n0 & E0).
      exists (B + n0). intros i n Hi Hn. destruct (Nat.eq_dec i K) as [->|Ni].
      - replace n with ((n - n0) + n0) by lia. rewrite Hadd, E0. auto.
      - apply HB; lia. }
    apply (HK M); auto. }
  destruct HB as (B & HB).
  destruct (table_grid M t N Hok SD HL' (B + 4)) as (X & t0 & q0 & G1 & G2 & _).
  assert (GT : forall s q, s < t0 + (B + 4) -> q <= B + 1 -> X (S s) q = Nat.iter q tau (X (S s) 0)).
  { intros s q Hs. induction q; intros Hq; auto.
    pose proof (G2 s q Hs ltac:(lia)) as HG. apply HP, HA in HG. destruct HG as (_ & _ & E & _).
    rewrite E, IHq by lia. auto. }
  assert (XM : forall s, s < t0 + (B + 4) -> X (S s) 0 < M).
  { intros s Hs. pose proof (G2 s 0 Hs ltac:(lia)) as HG. apply HP, HA in HG. tauto. }
  pose proof (G2 1 B ltac:(lia) ltac:(lia)) as HG. apply HP, HA in HG.
  destruct HG as (_ & _ & E & Hne & _). apply Hne.
  rewrite (GT 1 (S B)), (GT 0 (S B)) by lia.
  rewrite !HB; auto; apply XM; lia.
Qed.

Lemma ring_walk : forall (s : list nat) (R : nat -> nat -> Prop),
  (forall p, p < length s -> R (nth (pred_of (length s) p) s 0) (nth p s 0)) ->
  forall p, p < length s -> exists e : nat -> nat, e 0 = nth p s 0 /\ forall k, R (e k) (e (S k)).
Proof.
  intros s R H p Hp. set (N := length s) in *.
  exists (fun k => nth ((p + k) mod N) s 0). split.
  - rewrite Nat.add_0_r, Nat.mod_small by auto. auto.
  - intros k. pose proof (Nat.mod_upper_bound (p + S k) N ltac:(lia)) as Hb.
    specialize (H ((p + S k) mod N) Hb).
    replace (pred_of N ((p + S k) mod N)) with ((p + k) mod N) in H; auto.
    unfold pred_of. pose proof (Nat.mod_upper_bound (p + k) N ltac:(lia)) as Hb'.
    replace (p + S k) with (S (p + k)) by lia.
    pose proof (Nat.div_mod (p + k) N ltac:(lia)) as Hd.
    destruct (Nat.eq_dec (S ((p + k) mod N)) N) as [E|E].
    + replace (S (p + k)) with (0 + (S ((p + k) / N)) * N) by nia. rewrite Nat.mod_add by lia.
      rewrite Nat.mod_0_l by lia. simpl. lia.
    + replace (S (p + k)) with (S ((p + k) mod N) + ((p + k) / N) * N) by lia.
      rewrite Nat.mod_add by lia. rewrite (Nat.mod_small (S _)) by lia. simpl. lia.
Qed.

Lemma gen_legit_silent : forall acts s, generate legits M = Some acts ->
  legit_state legits s -> silent (acts_protocol acts) s.
Proof.
  intros acts s H HL s' (p & a & b & c & Ha & Hb & Hin & _).
  assert (Hp : p < length s) by (apply nth_error_Some; congruence).
  destruct (generate_spec acts H) as [[-> _]|(g & tau & Hroot & Hg & Tg & HT & HA & HI & _)]; [destruct Hin|].
  apply HA in Hin. destruct Hin as (_ & _ & _ & _ & Hn). apply Hn.
  apply nth_error_nth with (d := 0) in Ha, Hb. subst a b. split; [apply HL; auto|].
  destruct (ring_walk s (legit legits) HL p Hp) as (e & E0 & He). exists e. auto.
Qed.

(** Silent states. *)
Lemma gen_silent_pairs : forall acts g s, generate legits M = Some acts ->
  root legits g -> in_domain M s -> silent (acts_protocol acts) s ->
  forall p, p < length s ->
     let a := nth (pred_of (length s) p) s 0 in let b := nth p s 0 in
     (legit legits a b /\ alive legits b) \/ (b = g /\ ~ path (legit legits) a g).
Proof.
  intros acts g s H Hroot D HS p Hp a b.
  destruct (generate_spec acts H) as [[_ H0]|(g' & tau & Hroot' & Hg & Tg & HT & HA & HI & HF & HD)].
  { destruct (H0 g). apply Hroot. }
  assert (g' = g).
  { destruct Hroot as [R1 R2], Hroot' as [R3 R4].
    destruct (lt_eq_lt_dec g g') as [[Hlt|]|Hlt]; auto; exfalso; [apply (R4 g)|apply (R2 g')]; auto. }
  subst g'.
  assert (Hq : pred_of (length s) p < length s) by (unfold pred_of; destruct (p =? 0); lia).
  unfold in_domain in D. rewrite Forall_forall in D.
  assert (Ha : a < M) by (apply D, nth_In; auto).
  assert (Hb : b < M) by (apply D, nth_In; auto).
  destruct (Nat.eq_dec (tau a) b) as [E|E].
  - destruct (HF a Ha) as [F|F]; [left|right]; rewrite <- E; tauto.
  - destruct (HD a b Ha) as [|Hn]; auto.
    exfalso. apply (HS (firstn p s ++ tau a :: skipn (S p) s)).
    exists p, a, b, (tau a). split; [apply nth_error_nth'; auto|]. split; [apply nth_error_nth'; auto|].
    split; auto. apply HA. repeat split; auto.
Qed.

Lemma path_snoc : forall (R : nat -> nat -> Prop) a b c, path R a b -> R b c -> path R a c.
Proof.
  intros R a b c H. induction H; intros Hc.
  - apply path_more with y; auto. apply path_one; auto.
  - apply path_more with y; auto.
Qed.

Lemma pred_of_mod : forall N p k, p < N ->
  pred_of N ((p + S k) mod N) = (p + k) mod N.
Proof.
  intros N p k Hp. unfold pred_of.
  pose proof (Nat.mod_upper_bound (p + k) N ltac:(lia)) as Hb'.
  replace (p + S k) with (S (p + k)) by lia.
  pose proof (Nat.div_mod (p + k) N ltac:(lia)) as Hd.
  destruct (Nat.eq_dec (S ((p + k) mod N)) N) as [E|E].
  + replace (S (p + k)) with (0 + (S ((p + k) / N)) * N) by nia. rewrite Nat.mod_add by lia.
    rewrite Nat.mod_0_l by lia. simpl. lia.
  + replace (S (p + k)) with (S ((p + k) mod N) + ((p + k) / N) * N) by lia.
    rewrite Nat.mod_add by lia. rewrite (Nat.mod_small (S _)) by lia. simpl. lia.
Qed.

Lemma gen_silent_conv : forall acts g s, generate legits M = Some acts -> root legits g ->
  in_domain M s -> silent (acts_protocol acts) s ->
  (forall x, path (legit legits) g x -> alive legits x -> path (legit legits) x g) ->
  legit_state legits s.
Proof.
  intros acts g s H Hroot D HS Hc p Hp.
  pose proof (gen_silent_pairs acts g s H Hroot D HS) as HP. cbv zeta in HP.
  set (N := length s) in *. set (v := fun k => nth ((p + k) mod N) s 0).
  destruct (HP p Hp) as [[]|[E Hn]]; auto. exfalso.
  assert (HV : forall k, (legit legits (v k) (v (S k)) /\ alive legits (v (S k))) \/ v (S k) = g).
  { intros k. unfold v. rewrite <- (pred_of_mod N p k Hp).
    destruct (HP ((p + S k) mod N)) as [|[]]; auto. apply Nat.mod_upper_bound. lia. }
  assert (HW : forall k, v k = g \/ (path (legit legits) g (v k) /\ alive legits (v k))).
  { induction k.
    - left. unfold v. rewrite Nat.add_0_r, Nat.mod_small by auto. auto.
    - destruct (HV k) as [[H1 H2]|]; auto. right. split; auto.
      destruct IHk as [IH|[IH _]]; [rewrite IH in H1; apply path_one; auto|eapply path_snoc; eauto]. }
  assert (Ev : v (N - 1) = nth (pred_of N p) s 0).
  { unfold v. replace (pred_of N p) with ((p + (N - 1)) mod N); auto.
    rewrite <- (pred_of_mod N p (N - 1) Hp). replace (p + S (N - 1)) with (p + 1 * N) by lia.
    rewrite Nat.mod_add by lia. rewrite Nat.mod_small; auto. }
  rewrite <- Ev in Hn. apply Hn. destruct (HW (N - 1)) as [->|[W1 W2]]; auto.
  apply path_one. apply Hroot.
Qed.

Lemma path_fun : forall (R : nat -> nat -> Prop) a b, path R a b ->
  exists n (f : nat -> nat), f 0 = a /\ f (S n) = b /\ forall k, k <= n -> R (f k) (f (S k)).
Proof.
  intros R a b H. induction H as [a b H|a b c H _ (n & f & F0 & F1 & F2)].
  - exists 0, (fun k => match k with 0 => a | _ => b end). repeat split; auto.
    intros k Hk. replace k with 0 by lia. auto.
  - exists (S n), (fun k => match k with 0 => a | S k' => f k' end). repeat split; auto.
    intros [|k] Hk; [rewrite F0; auto|]. apply F2. lia.
Qed.

Lemma alive_back : forall (f : nat -> nat) n, (forall k, k <= n -> legit legits (f k) (f (S k))) ->
  alive legits (f (S n)) -> forall k, k <= S n -> alive legits (f k).
Proof.
  intros f n Hf (e & E0 & He) k Hk.
  exists (fun i => if k + i <=? n then f (k + i) else e (k + i - S n)). split.
  - rewrite Nat.add_0_r. destruct (Nat.leb_spec k n); auto. replace k with (S n) by lia.
    rewrite Nat.sub_diag. auto.
  - intros i. destruct (Nat.leb_spec (k + i) n); destruct (Nat.leb_spec (k + S i) n); try lia.
    + replace (k + S i) with (S (k + i)) by lia. apply Hf. lia.
    + replace (k + i) with n by lia. replace (k + S i - S n) with 0 by lia. rewrite E0. apply Hf. lia.
    + replace (k + S i - S n) with (S (k + i - S n)) by lia. apply He.
Qed.

(** A value reachable from the root, alive, that cannot return to the root
    gives a silent ring state that is not legitimate. *)
Lemma gen_bad_state : forall acts g x, generate legits M = Some acts -> root legits g ->
  path (legit legits) g x -> alive legits x -> ~ path (legit legits) x g ->
  exists s, 2 <= length s /\ in_domain M s /\ silent (acts_protocol acts) s /\ ~ legit_state legits s.
Proof.
  intros acts g x H Hroot Hp Hal Hn.
  destruct (generate_spec acts H) as [[_ H0]|(g' & tau & Hroot' & Hg & Tg & HT & HA & HI & HF & HD)].
  { destruct (H0 g). apply Hroot. }
  assert (g' = g).
  { destruct Hroot as [R1 R2], Hroot' as [R3 R4].
    destruct (lt_eq_lt_dec g g') as [[Hlt|]|Hlt]; auto; exfalso; [apply (R4 g)|apply (R2 g')]; auto. }
  subst g'. destruct (path_fun _ _ _ Hp) as (n & f & F0 & F1 & F2).
  set (s := map f (seq 0 (S (S n)))).
  assert (Ls : length s = S (S n)) by (unfold s; rewrite map_length, seq_length; auto).
  assert (Ns : forall k, k < S (S n) -> nth k s 0 = f k).
  { intros k Hk. unfold s. rewrite (nth_indep _ 0 (f 0)) by (fold s; lia). rewrite map_nth.
    rewrite seq_nth by auto. auto. }
  assert (HM : forall k, k <= S n -> f k < M).
  { intros k Hk. destruct k; [rewrite F0; auto|]. destruct (Hrange _ _ (F2 k ltac:(lia))). auto. }
  exists s. split; [lia|]. split; [|split].
  - apply Forall_forall. intros v Hv. apply in_map_iff in Hv. destruct Hv as (k & <- & Hk).
    apply in_seq in Hk. apply HM. lia.
  - intros s' (p & a & b & c & Ha & Hb & Hin & _).
    assert (Hps : p < length s) by (apply nth_error_Some; congruence).
    apply nth_error_nth with (d := 0) in Ha, Hb. apply HA in Hin.
    destruct Hin as (Ham & Hbm & -> & Hne & Hnl). rewrite Ls in *. rewrite Ns in Hb by auto.
    unfold pred_of in Ha. destruct (Nat.eqb_spec p 0) as [->|Np].
    + rewrite Ns in Ha by lia. replace (S (S n) - 1) with (S n) in Ha by lia.
      rewrite F1 in Ha. rewrite F0 in Hb. subst a b.
      destruct (HF x Ham) as [[_ [_ F]]|[F _]]; [contradiction|congruence].
    + rewrite Ns in Ha by lia. destruct p as [|p]; [lia|].
      replace (S p - 1) with p in Ha by lia. apply Hnl. subst a b.
      split; [apply F2; lia|]. apply (alive_back f n); auto; [rewrite F1; auto|lia].
  - intros HL. apply Hn. specialize (HL 0 ltac:(lia)). rewrite Ls in HL. unfold pred_of in HL.
    rewrite Nat.eqb_refl in HL. rewrite !Ns in HL by lia. replace (S (S n) - 1) with (S n) in HL by lia.
    rewrite F0, F1 in HL. apply path_one. auto.
Qed.

Lemma gen_conv_iff : forall acts g, generate legits M = Some acts -> root legits g ->
  ((forall s, in_domain M s -> silent (acts_protocol acts) s -> legit_state legits s) <->
   (forall x, path (legit legits) g x -> alive legits x -> path (legit legits) x g)).
Proof.
  intros acts g H Hroot. split.
  - intros HS x Hp Hal.
    destruct (generate_spec acts H) as [[_ H0]|(g' & tau & Hroot' & Hg & Tg & HT & HA & HI & HF & HD)].
    { destruct (H0 g). apply Hroot. }
    assert (g' = g).
    { destruct Hroot as [R1 R2], Hroot' as [R3 R4].
      destruct (lt_eq_lt_dec g g') as [[Hlt|]|Hlt]; auto; exfalso; [apply (R4 g)|apply (R2 g')]; auto. }
    subst g'.
    assert (Hx : x < M).
    { destruct (path_fun _ _ _ Hp) as (n & f & F0 & F1 & F2). rewrite <- F1.
      destruct (Hrange _ _ (F2 n (le_n n))). auto. }
    destruct (HF x Hx) as [(_ & _ & ?)|[_ Hn]]; auto.
    destruct (gen_bad_state acts g x H Hroot Hp Hal Hn) as (s & _ & D & S & NL).
    destruct (NL (HS s D S)).
  - intros Hc s D S. eapply gen_silent_conv; eauto.
Qed.
End Gen.
