(** The fixpoint; the sizes of rings which have legitimate states. *)
From Coq Require Import List Arith Bool Lia.
From Verif Require Import Radix BiringModel BiringSpec BiringProofs.
Import ListNotations.

Section Fixpt.
Variable M : nat.
Notation walk := (walk M).
Notation step := (step M).

Lemma walk_mono : forall (s s' : bits) k e f, (forall i, ck s i = true -> ck s' i = true) -> walk s k e f -> walk s' k e f.
Proof.
  intros s s' k e f H. revert e. induction k as [|k IH]; intros e W; cbn [BiringProofs.walk] in *; auto.
  destruct W as (g & W1 & W2). exists g. split; auto.
  unfold BiringProofs.step, continuations in *. destruct (pc_config_of_enum_idx M e) as ((a & b) & d).
  apply filter_In in W1. apply filter_In. destruct W1 as (W1 & W3). split; auto.
Qed.

(** A node on no closed walk is on no closed walk of another node. *)
Lemma walk_avoid : forall (s : bits) u k e, u < length s -> (forall j, ~ walk s (S j) u u) -> e <> u ->
  walk s k e e -> walk (set_bit s u false) k e e.
Proof.
  intros s u k e Hu Hn He W.
  assert (X : forall k' e', e' <> u -> (exists j, walk s j e e') -> walk s k' e' e -> walk (set_bit s u false) k' e' e).
  { induction k' as [|k' IH]; intros e' Ne' (j & R) W'; cbn [BiringProofs.walk] in W' |- *; auto.
    destruct W' as (g & W1 & W2).
    assert (Ng : g <> u).
    { intros ->. apply (Hn (k' + j)). change (walk s (S (k' + j)) u u). replace (S (k' + j)) with (k' + S j) by lia.
      apply (walk_app M s k' (S j) u e u W2). eapply walk_snoc; [exact R|exact W1]. }
    exists g. split.
    - unfold BiringProofs.step, continuations in *. destruct (pc_config_of_enum_idx M e') as ((a & b) & d).
      apply filter_In in W1. apply filter_In. destruct W1 as (W1 & W3). split; auto.
      rewrite ck_set_bit by auto. destruct (Nat.eqb_spec u g); congruence.
    - apply IH; auto. exists (S j). eapply walk_snoc; [exact R|exact W1]. }
  apply X; auto. exists 0. reflexivity.
Qed.

Lemma fixpoint_loop_spec : forall todo s, NoDup todo -> exists s', fixpoint_loop M todo s = Some s' /\ length s' = length s /\
  (forall e, ck s' e = true -> ck s e = true) /\
  (forall e, In e todo -> ck s' e = true -> exists k, walk s (S k) e e) /\
  (forall e, ~ In e todo -> ck s' e = ck s e) /\
  (forall e k, walk s (S k) e e -> walk s' (S k) e e).
Proof.
  induction todo as [|u todo IH]; intros s ND; cbn [fixpoint_loop].
  - exists s. repeat split; auto. intros e [].
  - inversion ND as [|? ? N1 N2]. subst. destruct (ck s u) eqn:Eu.
    + destruct (legit_enum_idx_spec M s u Eu) as (b & E & Hb). rewrite E. destruct b.
      * destruct (IH s N2) as (s' & F1 & F2 & F3 & F4 & F5 & F6). exists s'. repeat split; auto.
        -- intros e [<-|He] K; auto. apply Hb. auto.
        -- intros e He. apply F5. intros X. apply He. right. auto.
      * destruct (IH (set_bit s u false) N2) as (s' & F1 & F2 & F3 & F4 & F5 & F6).
        pose proof (ck_bound _ _ Eu) as Bu.
        assert (Mo : forall i, ck (set_bit s u false) i = true -> ck s i = true).
        { intros i. rewrite ck_set_bit by auto. destruct (u =? i); [discriminate|auto]. }
        assert (Nw : forall j, ~ walk s (S j) u u).
        { intros j W. assert (false = true) by (apply Hb; exists j; auto). discriminate. }
        exists s'. rewrite set_bit_length in F2. repeat split; auto.
        -- intros e [<-|He] K.
           ++ rewrite F5, ck_set_bit, Nat.eqb_refl in K by auto. discriminate.
           ++ destruct (F4 e He K) as (k & W). exists k. eapply walk_mono; [exact Mo|exact W].
        -- intros e He. cbn in He. rewrite F5 by tauto. rewrite ck_set_bit by auto.
           destruct (Nat.eqb_spec u e); [subst; tauto|auto].
        -- intros e k W. apply F6. apply walk_avoid; auto. intros ->. apply (Nw k W).
    + destruct (IH s N2) as (s' & F1 & F2 & F3 & F4 & F5 & F6). exists s'. repeat split; auto.
      * intros e [<-|He] K; auto. apply F3 in K. congruence.
      * intros e He. apply F5. intros X. apply He. right. auto.
Qed.

Lemma biring_fixpoint_spec : forall s, exists s', biring_fixpoint M s = Some s' /\ length s' = length s /\
  (forall e, ck s' e = true <-> exists k, walk s (S k) e e) /\ (forall e k, walk s (S k) e e -> walk s' (S k) e e).
Proof.
  intros s. destruct (fixpoint_loop_spec (seq 0 (length s)) s (seq_NoDup _ _)) as (s' & F1 & F2 & F3 & F4 & F5 & F6).
  exists s'. unfold biring_fixpoint. split; auto. split; auto. split; auto. intros e. split.
  - intros K. apply F4; auto. apply in_seq. apply ck_bound in K. lia.
  - intros (k & W). apply F6 in W. eapply walk_ck. exact W.
Qed.
End Fixpt.

(** * Iterated images *)
Section Sat.
Variable M : nat.
Variable s : bits.
Notation walk := (walk M).
Notation step := (step M).
Notation n := (length s).

Lemma img_length : forall pre, length (img M s pre) = n.
Proof. intros. unfold img. rewrite map_length, seq_length. auto. Qed.

Lemma img_ck : forall pre f, ck (img M s pre) f = true <-> exists e, ck pre e = true /\ step s e f.
Proof.
  intros pre f. unfold img.
  assert (X : forall i, existsb (Nat.eqb i) (flat_map (fun e => continuations M e s) (members pre)) = true <->
                        exists e, ck pre e = true /\ step s e i).
  { intros i. rewrite existsb_exists. split.
    - intros (j & H1 & H2). apply Nat.eqb_eq in H2. subst j. apply in_flat_map in H1. destruct H1 as (e & H1 & H2).
      exists e. rewrite <- members_in. auto.
    - intros (e & H1 & H2). exists i. rewrite Nat.eqb_refl. split; auto. apply in_flat_map. exists e. rewrite members_in. auto. }
  unfold ck at 1. destruct (Nat.lt_ge_cases f n) as [H|H].
  - rewrite (nth_indep _ false (existsb (Nat.eqb 0) (flat_map (fun e => continuations M e s) (members pre))))
      by (rewrite map_length, seq_length; auto).
    rewrite (map_nth (fun i => existsb (Nat.eqb i) (flat_map (fun e => continuations M e s) (members pre)))).
    rewrite seq_nth by auto. apply X.
  - rewrite nth_overflow by (rewrite map_length, seq_length; auto). split; [discriminate|].
    intros (e & _ & K). apply step_ck, ck_bound in K. lia.
Qed.

Fixpoint iter (k : nat) (pre : bits) : bits := match k with 0 => pre | S k' => img M s (iter k' pre) end.

Lemma single_ck : forall e f, e < n -> (ck (single n e) f = true <-> e = f).
Proof.
  intros e f H. unfold single. rewrite ck_set_bit by (rewrite repeat_length; auto).
  destruct (Nat.eqb_spec e f); [tauto|]. rewrite ck_zero. split; [discriminate|tauto].
Qed.
Lemma single_length : forall e, length (single n e) = n.
Proof. intros. unfold single. rewrite set_bit_length, repeat_length. auto. Qed.
Lemma iter_length : forall e k, length (iter k (single n e)) = n.
Proof. intros e [|k]; [apply single_length|apply img_length]. Qed.

Lemma iter_ck : forall e k f, e < n -> (ck (iter k (single n e)) f = true <-> walk s k e f).
Proof.
  intros e k f He. revert f. induction k as [|k IH]; intros f.
  - cbn. apply single_ck. auto.
  - cbn [iter]. rewrite img_ck. split.
    + intros (g & H1 & H2). apply IH in H1. eapply walk_snoc; eauto.
    + intros W. apply walk_last in W. destruct W as (g & W1 & W2). exists g. split; auto. apply IH. auto.
Qed.

Lemma bits_eqb_eq : forall a b, bits_eqb a b = true <-> a = b.
Proof. intros a b. unfold bits_eqb. destruct (list_eq_dec bool_dec a b); split; auto; discriminate. Qed.

Lemma bits_ext : forall (a b : bits), length a = length b -> (forall i, ck a i = ck b i) -> a = b.
Proof.
  unfold ck. intros a b H1 H2. apply (nth_ext a b false false); auto.
Qed.

Lemma iter_stable : forall k e, iter k (single n e) = iter (S k) (single n e) ->
  forall j, k <= j -> iter j (single n e) = iter k (single n e).
Proof.
  intros k e H j Hj. induction Hj as [|j Hj IH]; auto. cbn [iter]. rewrite IH. symmetry. exact H.
Qed.

(** sat_loop looks at the iterates until one comes again *)
Lemma sat_loop_sound : forall fuel e k visited, e < n -> length visited = k ->
  forall m, sat_loop M fuel s e visited (iter k (single n e)) = Some (Some m) ->
  exists k', m = S k' /\ forall j, k' <= j -> walk s j e e.
Proof.
  induction fuel as [|fuel IH]; intros e k visited He Hv m E; cbn [sat_loop] in E; [discriminate|].
  destruct (existsb _ visited); [discriminate|].
  destruct (ck (img M s (iter k (single n e))) e && bits_eqb (iter k (single n e)) (img M s (iter k (single n e)))) eqn:C.
  - injection E as <-. apply andb_true_iff in C. destruct C as (C1 & C2). apply bits_eqb_eq in C2.
    exists k. cbn. split; [lia|]. intros j Hj. apply iter_ck; auto.
    rewrite (iter_stable k e C2 j Hj). rewrite C2. auto.
  - apply (IH e (S k) (iter k (single n e) :: visited)) in E; auto. cbn. lia.
Qed.

Lemma sat_loop_none : forall fuel e k visited, e < n ->
  (forall v, In v visited <-> exists i, i < k /\ v = iter i (single n e)) ->
  (forall i, i < k -> ~ (ck (iter (S i) (single n e)) e = true /\ iter i (single n e) = iter (S i) (single n e))) ->
  sat_loop M fuel s e visited (iter k (single n e)) = Some None ->
  forall i, ~ (ck (iter (S i) (single n e)) e = true /\ iter i (single n e) = iter (S i) (single n e)).
Proof.
  induction fuel as [|fuel IH]; intros e k visited He Hv Hn E; cbn [sat_loop] in E; [discriminate|].
  destruct (existsb _ visited) eqn:V.
  - apply existsb_exists in V. destruct V as (v & V1 & V2). apply bits_eqb_eq in V2. subst v.
    apply Hv in V1. destruct V1 as (i0 & V1 & V2).
    assert (P : forall d, exists j, j < k /\ iter (k + d) (single n e) = iter j (single n e)).
    { induction d as [|d (j & J1 & J2)]; [exists i0; rewrite Nat.add_0_r; auto|].
      replace (k + S d) with (S (k + d)) by lia. cbn [iter]. rewrite J2.
      destruct (Nat.eq_dec (S j) k) as [<-|X]; [exists i0; split; auto|]. exists (S j). split; [lia|auto]. }
    intros i (C1 & C2). destruct (Nat.lt_ge_cases i k) as [H|H]; [apply (Hn i H); auto|].
    destruct (P (i - k)) as (j & J1 & J2). replace (k + (i - k)) with i in J2 by lia.
    apply (Hn j J1). cbn [iter] in *. rewrite <- J2. auto.
  - destruct (ck (img M s (iter k (single n e))) e && bits_eqb (iter k (single n e)) (img M s (iter k (single n e)))) eqn:C; [discriminate|].
    refine (IH e (S k) (iter k (single n e) :: visited) He _ _ E).
    + intros v. cbn. rewrite Hv. split.
      * intros [<-|(i & H1 & H2)]; [exists k; split; auto|exists i; split; auto].
      * intros (i & H1 & H2). destruct (Nat.eq_dec i k) as [->|X]; [auto|]. right. exists i. split; [lia|auto].
    + intros i Hi (C1 & C2). destruct (Nat.eq_dec i k) as [->|X]; [|apply (Hn i); [lia|auto]].
      cbn [iter] in C1, C2. rewrite C1 in C. cbn [andb] in C. apply bits_eqb_eq in C2. congruence.
Qed.

(** all tables of a length *)
Fixpoint tables (m : nat) : list bits := match m with 0 => [[]] | S m' => map (cons true) (tables m') ++ map (cons false) (tables m') end.
Lemma tables_in : forall (v : bits), In v (tables (length v)).
Proof.
  induction v as [|[] v IH]; cbn; auto; apply in_or_app; [left|right]; apply in_map; auto.
Qed.

Lemma sat_loop_total : forall fuel e pre visited, length pre = n -> NoDup visited -> (forall v, In v visited -> length v = n) ->
  length (tables n) < fuel + length visited -> sat_loop M fuel s e visited pre <> None.
Proof.
  induction fuel as [|fuel IH]; intros e pre visited Hp ND Hl Hf; cbn [sat_loop].
  - exfalso. assert (X : length visited <= length (tables n)).
    { apply NoDup_incl_length; auto. intros v Hv. rewrite <- (Hl v Hv). apply tables_in. }
    lia.
  - destruct (existsb (bits_eqb pre) visited) eqn:V; [discriminate|].
    destruct (ck (img M s pre) e && bits_eqb pre (img M s pre)); [discriminate|].
    apply IH.
    + apply img_length.
    + constructor; auto. intros H. assert (X : existsb (bits_eqb pre) visited = true); [|congruence].
      apply existsb_exists. exists pre. split; auto. apply bits_eqb_eq. auto.
    + intros v [<-|H]; auto.
    + cbn. lia.
Qed.
End Sat.
