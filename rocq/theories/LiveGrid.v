(** From an infinite execution of a deterministic self-disabling protocol on a
    ring to an arbitrarily large grid of local actions (used for C07 and C12). *)
From Coq Require Import List Arith Lia Bool.
From Verif Require Import FinLib UniSpec.
Import ListNotations.

Definition b2n (b : bool) : nat := if b then 1 else 0.

Fixpoint cnt (b : nat -> bool) (n : nat) : nat :=
  match n with 0 => 0 | S k => cnt b k + b2n (b k) end.

Lemma cnt_ext : forall b b' n, (forall i, i < n -> b i = b' i) -> cnt b n = cnt b' n.
Proof.
  induction n; intros H; simpl; auto. rewrite IHn by (intros; apply H; lia).
  rewrite (H n) by lia. auto.
Qed.

Lemma cnt_point : forall b b' p n, p < n -> (forall i, i < n -> i <> p -> b i = b' i) ->
  cnt b' n + b2n (b p) = cnt b n + b2n (b' p).
Proof.
  induction n; intros Hp H; [lia|]. simpl.
  destruct (Nat.eq_dec p n) as [->|Hne].
  - rewrite (cnt_ext b b' n) by (intros; apply H; lia). lia.
  - rewrite (H n) by lia. specialize (IHn ltac:(lia)).
    rewrite <- Nat.add_assoc, (Nat.add_comm (b2n (b' n))), Nat.add_assoc.
    rewrite IHn by (intros; apply H; lia). lia.
Qed.

(** Sums over processes. *)
Fixpoint sum (f : nat -> nat) (n : nat) : nat :=
  match n with 0 => 0 | S k => sum f k + f k end.

Lemma sum_ext : forall f g n, (forall i, i < n -> f i = g i) -> sum f n = sum g n.
Proof.
  induction n; intros H; simpl; auto. rewrite IHn by (intros; apply H; lia). rewrite (H n); lia.
Qed.

Lemma sum_bump : forall f p n, p < n ->
  sum (fun i => if i =? p then S (f i) else f i) n = S (sum f n).
Proof.
  induction n; intros Hp; [lia|]. simpl. destruct (Nat.eq_dec p n) as [->|Hne].
  - rewrite Nat.eqb_refl. rewrite (sum_ext _ f n); [lia|].
    intros i Hi. replace (i =? n) with false; auto. symmetry; apply Nat.eqb_neq; lia.
  - rewrite IHn by lia. replace (n =? p) with false by (symmetry; apply Nat.eqb_neq; lia). lia.
Qed.

Lemma sum_le : forall f n B, (forall i, i < n -> f i <= B) -> sum f n <= n * B.
Proof.
  induction n; intros B H; simpl; [lia|]. specialize (IHn B ltac:(intros; apply H; lia)).
  specialize (H n ltac:(lia)). lia.
Qed.

Lemma min_in_list : forall l : list nat, l <> [] -> exists c, In c l /\ forall x, In x l -> c <= x.
Proof.
  induction l as [|a l IH]; intros H; [congruence|].
  destruct l as [|b l].
  - exists a. split; [left; auto|]. intros x [<-|[]]; auto.
  - destruct (IH ltac:(congruence)) as (c & H1 & H2).
    destruct (le_lt_dec a c) as [L|G].
    + exists a. split; [left; auto|]. intros x [<-|Hx]; auto. apply H2 in Hx. lia.
    + exists c. split; [right; auto|]. intros x [<-|Hx]; auto. lia.
Qed.

Section Live.
Variable f : nat -> nat -> nat.        (* f a b = M: no action *)
Variable M N : nat.
Hypothesis HN : 2 <= N.
Let P : protocol := fun a b c => a < M /\ b < M /\ c < M /\ f a b = c.
Hypothesis SD : self_disabling P.

Notation val s p := (nth p s 0).
Notation pr p := (pred_of N p).
Definition sc (p : nat) : nat := if S p =? N then 0 else S p.

Lemma pr_lt : forall p, p < N -> pr p < N.
Proof. intros. unfold pred_of. destruct (p =? 0); lia. Qed.

Lemma pr_sc : forall p, p < N -> pr (sc p) = p.
Proof.
  intros. unfold sc, pred_of. destruct (Nat.eqb_spec (S p) N); simpl; lia.
Qed.

Lemma sc_lt : forall p, p < N -> sc p < N.
Proof. intros. unfold sc. destruct (Nat.eqb_spec (S p) N); lia. Qed.

Lemma sc_ne : forall p, p < N -> sc p <> p.
Proof. intros. unfold sc. destruct (Nat.eqb_spec (S p) N); lia. Qed.

Lemma pr_inj_sc : forall p q, p < N -> q < N -> pr q = p -> q = sc p.
Proof.
  intros p q Hp Hq. unfold sc, pred_of. destruct (Nat.eqb_spec q 0); destruct (Nat.eqb_spec (S p) N); lia.
Qed.

Definition ok (s : list nat) : Prop := length s = N /\ in_domain M s.

Lemma ok_val : forall s p, ok s -> p < N -> val s p < M.
Proof.
  intros s p [L D] Hp. unfold in_domain in D. rewrite Forall_forall in D. apply D.
  apply nth_In. lia.
Qed.

Definition enb (s : list nat) (p : nat) : bool := f (val s (pr p)) (val s p) <? M.

Lemma step_form : forall s s', ok s -> ring_step P s s' ->
  exists p, p < N /\ enb s p = true /\ s' = upd s p (f (val s (pr p)) (val s p)) /\ ok s'.
Proof.
  intros s s' [L D] (p & a & b & c & Ha & Hb & (H1 & H2 & H3 & H4) & ->).
  assert (Hp : p < N) by (rewrite <- L; apply nth_error_Some; congruence).
  rewrite L in Ha.
  apply nth_error_nth with (d := 0) in Ha. apply nth_error_nth with (d := 0) in Hb.
  exists p. split; auto. unfold enb. rewrite Ha, Hb, H4.
  split; [apply Nat.ltb_lt; auto|].
  rewrite <- upd_app_form by lia. split; auto.
  split; [rewrite upd_length; auto|]. apply Forall_upd; auto.
Qed.

(** One step turns off exactly the acting process and may change only its
    successor. *)
Lemma step_enb : forall s p, ok s -> p < N -> enb s p = true ->
  let s' := upd s p (f (val s (pr p)) (val s p)) in
  enb s' p = false /\ forall q, q < N -> q <> p -> q <> sc p -> enb s' q = enb s q.
Proof.
  intros s p Hok Hp He s'. pose proof Hok as [L D].
  assert (Hprp : pr p <> p).
  { intro E. apply (pr_inj_sc p p) in E; auto. apply (sc_ne p Hp). auto. }
  split.
  - unfold enb in *. apply Nat.ltb_lt in He. apply Nat.ltb_ge.
    unfold s'. rewrite nth_upd_other by auto. rewrite nth_upd_same by lia.
    set (a := val s (pr p)) in *. set (b := val s p) in *. set (c := f a b) in *.
    destruct (le_lt_dec M (f a c)) as [|Hlt]; auto. exfalso.
    apply (SD a b c (f a c)).
    + repeat split; auto; [apply ok_val; auto; apply pr_lt; auto | apply ok_val; auto].
    + repeat split; auto. apply ok_val; auto; apply pr_lt; auto.
  - intros q Hq H1 H2. unfold enb, s'.
    rewrite !nth_upd_other; auto. intro E. apply H2. apply pr_inj_sc; auto.
Qed.

Section Cyc.
Variable e : nat -> list nat.
Variable L : nat.
Hypothesis HL : 1 <= L.
Hypothesis Eok : forall k, ok (e k).
Hypothesis Estep : forall k, ring_step P (e k) (e (S k)).
Hypothesis Ecyc : forall k, e (k + L) = e k.

Lemma E_step : forall k, exists p, p < N /\ enb (e k) p = true /\
  e (S k) = upd (e k) p (f (val (e k) (pr p)) (val (e k) p)).
Proof.
  intros k. destruct (step_form (e k) (e (S k)) (Eok k) (Estep k)) as (p & H1 & H2 & H3 & _). eauto.
Qed.

Lemma cnt_step : forall k p, p < N -> enb (e k) p = true ->
  e (S k) = upd (e k) p (f (val (e k) (pr p)) (val (e k) p)) ->
  cnt (enb (e (S k))) N + 1 + b2n (enb (e k) (sc p)) =
  cnt (enb (e k)) N + b2n (enb (e (S k)) (sc p)).
Proof.
  intros k p Hp He Es.
  destruct (step_enb (e k) p (Eok k) Hp He) as [H1 H2]. rewrite <- Es in H1, H2.
  set (mid := fun i => if i =? p then false else enb (e k) i).
  assert (A : cnt mid N + b2n (enb (e k) p) = cnt (enb (e k)) N + b2n (mid p)).
  { apply cnt_point; auto. intros i Hi Hne. unfold mid.
    apply Nat.eqb_neq in Hne. rewrite Hne. auto. }
  assert (B : cnt (enb (e (S k))) N + b2n (mid (sc p)) = cnt mid N + b2n (enb (e (S k)) (sc p))).
  { apply cnt_point; [apply sc_lt; auto|]. intros i Hi Hne. unfold mid.
    destruct (Nat.eqb_spec i p) as [->|E]; [congruence|]. symmetry. auto. }
  assert (mid p = false) as Ep by (unfold mid; rewrite Nat.eqb_refl; auto).
  assert (mid (sc p) = enb (e k) (sc p)) as Esc.
  { unfold mid. pose proof (sc_ne p Hp) as Hne. apply Nat.eqb_neq in Hne. rewrite Hne. auto. }
  rewrite Ep, He in A. rewrite Esc in B. simpl in A. lia.
Qed.

Lemma cnt_noninc : forall k, cnt (enb (e (S k))) N <= cnt (enb (e k)) N.
Proof.
  intros k. destruct (E_step k) as (p & Hp & He & Es).
  pose proof (cnt_step k p Hp He Es).
  destruct (enb (e (S k)) (sc p)), (enb (e k) (sc p)); simpl in *; lia.
Qed.

Lemma cnt_noninc_n : forall d k, cnt (enb (e (k + d))) N <= cnt (enb (e k)) N.
Proof.
  induction d; intros k; [rewrite Nat.add_0_r; lia|].
  replace (k + S d) with (S (k + d)) by lia. pose proof (cnt_noninc (k + d)).
  specialize (IHd k). lia.
Qed.

Lemma cnt_const : forall k, cnt (enb (e (S k))) N = cnt (enb (e k)) N.
Proof.
  intros k. pose proof (cnt_noninc k). pose proof (cnt_noninc_n (L - 1) (S k)).
  replace (S k + (L - 1)) with (k + L) in H0 by lia. rewrite Ecyc in H0. lia.
Qed.

(** In a cycle every act enables the (so far disabled) successor. *)
Lemma succ_toggle : forall k p, p < N -> enb (e k) p = true ->
  e (S k) = upd (e k) p (f (val (e k) (pr p)) (val (e k) p)) ->
  enb (e k) (sc p) = false /\ enb (e (S k)) (sc p) = true.
Proof.
  intros k p Hp He Es. pose proof (cnt_step k p Hp He Es). rewrite cnt_const in H.
  destruct (enb (e (S k)) (sc p)), (enb (e k) (sc p)); simpl in *; try lia; auto.
Qed.

(** Histories: [n p] acts of process p so far, [A p i] its value after i acts. *)
Record hist (K : nat) (n : nat -> nat) (A : nat -> nat -> nat) : Prop := {
  h_cur : forall p, p < N -> A p (n p) = val (e K) p;
  h_lvl : forall p, p < N -> n p + b2n (enb (e K) p) = n (pr p) + b2n (enb (e 0) p);
  h_rec : forall p i, p < N -> i < n p ->
      P (A (pr p) (S i - b2n (enb (e 0) p))) (A p i) (A p (S i));
  h_sum : sum n N = K;
  h_val : forall p i, p < N -> i <= n p -> exists k, k <= K /\ A p i = val (e k) p
}.

Lemma hist0 : hist 0 (fun _ => 0) (fun p _ => val (e 0) p).
Proof.
  constructor; intros; auto; try lia.
  - clear. induction N; simpl; auto. lia.
  - exists 0. auto.
Qed.

Lemma hist_step : forall K n A, hist K n A ->
  exists n' A', hist (S K) n' A' /\ (forall p, n p <= n' p) /\
    (forall p i, p < N -> i <= n p -> A' p i = A p i).
Proof.
  intros K n A H. destruct (E_step K) as (q & Hq & He & Es).
  destruct (succ_toggle K q Hq He Es) as [T1 T2].
  destruct (step_enb (e K) q (Eok K) Hq He) as [S1 S2]. rewrite <- Es in S1, S2.
  set (c := f (val (e K) (pr q)) (val (e K) q)) in *.
  exists (fun p => if p =? q then S (n p) else n p).
  exists (fun p i => if (p =? q) && (i =? S (n p)) then c else A p i).
  assert (Len : length (e K) = N) by (apply Eok).
  assert (Hprq : pr q <> q).
  { intro E. apply (pr_inj_sc q q) in E; auto. apply (sc_ne q Hq). auto. }
  split; [|split].
  - constructor.
    + intros p Hp. destruct (Nat.eqb_spec p q) as [->|E].
      * rewrite Nat.eqb_refl. simpl. rewrite Es. rewrite nth_upd_same by lia. auto.
      * simpl. rewrite (h_cur K n A H) by auto. rewrite Es, nth_upd_other by auto. auto.
    + intros p Hp. pose proof (h_lvl K n A H p Hp) as Hl.
      destruct (Nat.eqb_spec p q) as [->|E].
      * rewrite S1. rewrite He in Hl. simpl in *.
        destruct (Nat.eqb_spec (pr q) q); [congruence|]. lia.
      * destruct (Nat.eqb_spec (pr p) q) as [E2|E2].
        -- apply pr_inj_sc in E2; auto. subst p. rewrite T2. rewrite T1 in Hl.
           rewrite pr_sc in * by auto. simpl in *. lia.
        -- rewrite S2; auto. intros ->. apply E2. apply pr_sc; auto.
    + intros p i Hp Hi. destruct (Nat.eqb_spec p q) as [->|E].
      * destruct (Nat.eqb_spec (pr q) q) as [?|_]; [congruence|]. cbn [andb].
        change (S i =? S (n q)) with (i =? n q).
        replace (i =? S (n q)) with false by (symmetry; apply Nat.eqb_neq; lia).
        destruct (Nat.eq_dec i (n q)) as [->|Hne].
        -- rewrite Nat.eqb_refl.
           pose proof (h_lvl K n A H q Hq) as Hl. rewrite He in Hl. simpl in Hl.
           replace (S (n q) - b2n (enb (e 0) q)) with (n (pr q)) by lia.
           rewrite (h_cur K n A H (pr q)) by (apply pr_lt; auto).
           rewrite (h_cur K n A H q) by auto.
           unfold enb in He. apply Nat.ltb_lt in He.
           repeat split; auto; apply ok_val; auto. apply pr_lt; auto.
        -- replace (i =? n q) with false by (symmetry; apply Nat.eqb_neq; lia).
           apply (h_rec K n A H); auto. lia.
      * cbn [andb]. destruct (Nat.eqb_spec (pr p) q) as [E2|E2].
        -- pose proof (h_lvl K n A H p Hp) as Hl.
           replace (S i - b2n (enb (e 0) p) =? S (n (pr p))) with false.
           ++ cbn [andb]. apply (h_rec K n A H); auto.
           ++ symmetry. apply Nat.eqb_neq. apply pr_inj_sc in E2; auto.
              subst p. rewrite T1 in Hl. rewrite pr_sc in * by auto. simpl in Hl. lia.
        -- cbn [andb]. apply (h_rec K n A H); auto.
    + rewrite sum_bump by auto. rewrite (h_sum K n A H). auto.
    + intros p i Hp Hi. destruct (Nat.eqb_spec p q) as [->|E]; simpl.
      * destruct (Nat.eqb_spec i (S (n q))) as [->|E2].
        -- exists (S K). split; auto. rewrite Es. rewrite nth_upd_same by lia. auto.
        -- destruct (h_val K n A H q i Hq ltac:(lia)) as (k & Hk & E3). exists k. split; auto.
      * destruct (h_val K n A H p i Hp Hi) as (k & Hk & E3). exists k. split; auto.
  - intros p. destruct (p =? q); lia.
  - intros p i Hp Hi. destruct (Nat.eqb_spec i (S (n p))); [lia|].
    rewrite andb_false_r. auto.
Qed.

Lemma hist_steps : forall d K n A, hist K n A ->
  exists n' A', hist (K + d) n' A' /\ (forall p, n p <= n' p) /\
    (forall p i, p < N -> i <= n p -> A' p i = A p i).
Proof.
  induction d; intros K n A H.
  - rewrite Nat.add_0_r. exists n, A. auto.
  - destruct (hist_step K n A H) as (n1 & A1 & H1 & G1 & F1).
    destruct (IHd (S K) n1 A1 H1) as (n2 & A2 & H2 & G2 & F2).
    exists n2, A2. replace (K + S d) with (S K + d) by lia. split; auto. split.
    + intros p. specialize (G1 p). specialize (G2 p). lia.
    + intros p i Hp Hi. rewrite F2; auto. specialize (G1 p). lia.
Qed.

(** Act counts of all processes are close to each other, so all grow. *)
Lemma hist_close : forall K n A, hist K n A ->
  forall d p, p < N -> p + d < N -> n p <= n (p + d) + d /\ n (p + d) <= n p + d.
Proof.
  intros K n A H. induction d; intros p Hp Hd.
  - replace (p + 0) with p by lia. lia.
  - assert (Hd' : p + d < N) by lia. destruct (IHd p Hp Hd') as [H1 H2].
    pose proof (h_lvl K n A H (S (p + d)) ltac:(lia)) as Hl.
    unfold pred_of in Hl. simpl in Hl. rewrite Nat.sub_0_r in Hl.
    replace (p + S d) with (S (p + d)) by lia.
    destruct (enb (e K) (S (p + d))), (enb (e 0) (S (p + d))); simpl in Hl; lia.
Qed.

Lemma hist_grow : forall K n A, hist K n A -> forall q, q < N -> K <= N * (n q + N).
Proof.
  intros K n A H q Hq. rewrite <- (h_sum K n A H). apply sum_le.
  intros i Hi. destruct (le_lt_dec i q) as [Hle|Hgt].
  - destruct (hist_close K n A H (q - i) i Hi ltac:(lia)) as [H1 _].
    replace (i + (q - i)) with q in H1 by lia. lia.
  - destruct (hist_close K n A H (i - q) q Hq ltac:(lia)) as [_ H1].
    replace (q + (i - q)) with i in H1 by lia. lia.
Qed.

(** Unrolled offsets. *)
Fixpoint D (q : nat) : nat :=
  match q with 0 => 0 | S q' => D q' + b2n (enb (e 0) (S q' mod N)) end.

Lemma D_le : forall q, D q <= q.
Proof. induction q; simpl; auto. destruct (enb (e 0) (S q mod N)); simpl; lia. Qed.

Lemma D_mono : forall q d, D q <= D (q + d).
Proof.
  intros q d. induction d; [rewrite Nat.add_0_r; auto|].
  replace (q + S d) with (S (q + d)) by lia. simpl. lia.
Qed.

Lemma mod_succ : forall q, S q mod N = sc (q mod N).
Proof.
  intros q. unfold sc. pose proof (Nat.mod_upper_bound q N ltac:(lia)).
  pose proof (Nat.div_mod q N ltac:(lia)).
  destruct (Nat.eqb_spec (S (q mod N)) N).
  - replace (S q) with (0 + (S (q / N)) * N) by nia. rewrite Nat.mod_add by lia. apply Nat.mod_0_l; lia.
  - replace (S q) with (S (q mod N) + (q / N) * N) by lia. rewrite Nat.mod_add by lia.
    apply Nat.mod_small. lia.
Qed.

Lemma Ecyc_n : forall r k, e (k + r * L) = e k.
Proof.
  induction r; intros k; [rewrite Nat.add_0_r; auto|].
  replace (k + S r * L) with (k + r * L + L) by lia. rewrite Ecyc. auto.
Qed.

Lemma Emod : forall k, e k = e (k mod L).
Proof.
  intros k. rewrite <- (Ecyc_n (k / L) (k mod L)). f_equal.
  pose proof (Nat.div_mod k L ltac:(lia)). lia.
Qed.

Lemma grid_of_cycle : forall n, exists (X : nat -> nat -> nat) t0 q0,
  n <= t0 /\
  (forall t q, t < t0 + n -> q < q0 + n -> P (X (S t) q) (X t (S q)) (X (S t) (S q))) /\
  (forall t q, t <= t0 + n -> q <= q0 + n -> X t0 q0 <= X t q).
Proof.
  intros n.
  destruct (min_in_list (flat_map e (seq 0 L))) as (c & Hc & Hmin).
  { intro E. assert (In (val (e 0) 0) (flat_map e (seq 0 L))).
    { apply in_flat_map. exists 0. split; [apply in_seq; lia|]. apply nth_In.
      destruct (Eok 0) as [-> _]. lia. }
    rewrite E in H. destruct H. }
  assert (Hmin' : forall k p, p < N -> c <= val (e k) p).
  { intros k p Hp. apply Hmin. apply in_flat_map. exists (k mod L).
    split; [apply in_seq; pose proof (Nat.mod_upper_bound k L ltac:(lia)); lia|].
    rewrite <- Emod. apply nth_In. destruct (Eok k) as [-> _]. auto. }
  apply in_flat_map in Hc. destruct Hc as (k0 & Hk0 & Hc).
  apply (In_nth _ _ 0) in Hc. destruct Hc as (q0 & Hq0 & Hc).
  destruct (Eok k0) as [Lk _]. rewrite Lk in Hq0.
  set (B := n + N + 1).
  set (K1 := k0 + (N * (B + N)) * L).
  destruct (hist_steps K1 0 _ _ hist0) as (n1 & A1 & H1 & _). simpl in H1.
  assert (Hbig : B <= n1 q0).
  { pose proof (hist_grow K1 n1 A1 H1 q0 Hq0).
    assert (N * (B + N) <= K1) by (unfold K1; nia).
    assert (N * (B + N) <= N * (n1 q0 + N)) by lia.
    apply Nat.mul_le_mono_pos_l in H2; lia. }
  set (i0 := n1 q0) in *.
  assert (Hseed : A1 q0 i0 = c).
  { unfold i0. rewrite (h_cur _ _ _ H1) by auto. unfold K1. rewrite Ecyc_n. auto. }
  set (T := i0 + n + N + n).
  destruct (hist_steps (N * (T + N)) K1 n1 A1 H1) as (n2 & A2 & H2 & _ & F2).
  assert (Hbig2 : forall q, q < N -> T <= n2 q).
  { intros q Hq. pose proof (hist_grow _ n2 A2 H2 q Hq).
    assert (N * (T + N) <= N * (n2 q + N)) by lia.
    apply Nat.mul_le_mono_pos_l in H0; lia. }
  pose proof (D_le q0) as HD.
  exists (fun t q => A2 (q mod N) (t + D q)), (i0 - D q0), q0.
  assert (Hmodlt : forall q, q mod N < N) by (intros; apply Nat.mod_upper_bound; lia).
  assert (HX0 : A2 (q0 mod N) (i0 - D q0 + D q0) = c).
  { rewrite Nat.mod_small by auto. replace (i0 - D q0 + D q0) with i0 by lia.
    rewrite F2; auto. }
  assert (HDb : forall q, q <= q0 + n -> D q <= D q0 + n).
  { intros q Hq. 
    assert (G : forall d, D (q0 + d) <= D q0 + d).
    { induction d; [rewrite Nat.add_0_r; lia|]. replace (q0 + S d) with (S (q0 + d)) by lia.
      simpl. destruct (enb (e 0) _); simpl; lia. }
    specialize (G n). pose proof (D_mono q (q0 + n - q)).
    replace (q + (q0 + n - q)) with (q0 + n) in H by lia. lia. }
  split; [lia|]. split.
  - intros t q Ht Hq.
    pose proof (h_rec _ _ _ H2 (S q mod N) (t + D (S q)) (Hmodlt _)) as HR.
    pose proof (HDb (S q) ltac:(lia)).
    specialize (HR ltac:(pose proof (Hbig2 (S q mod N) (Hmodlt _)); unfold T in *; lia)).
    rewrite mod_succ in HR at 1. rewrite pr_sc in HR by auto.
    replace (S (t + D (S q)) - b2n (enb (e 0) (S q mod N))) with (S t + D q) in HR.
    2:{ cbn [D]. lia. }
    exact HR.
  - intros t q Ht Hq. rewrite HX0.
    destruct (h_val _ _ _ H2 (q mod N) (t + D q) (Hmodlt _)) as (k & _ & Ek).
    { pose proof (HDb q Hq). pose proof (Hbig2 (q mod N) (Hmodlt _)). unfold T in *. lia. }
    rewrite Ek. apply Hmin'. auto.
Qed.
End Cyc.

Lemma list_nat_eq_dec : forall x y : list nat, {x = y} + {x <> y}.
Proof. apply list_eq_dec. apply Nat.eq_dec. Qed.

Lemma grid_of_livelock : livelock_on P M N ->
  forall n, exists (X : nat -> nat -> nat) t0 q0,
  n <= t0 /\
  (forall t q, t < t0 + n -> q < q0 + n -> P (X (S t) q) (X t (S q)) (X (S t) (S q))) /\
  (forall t q, t <= t0 + n -> q <= q0 + n -> X t0 q0 <= X t q).
Proof.
  intros (e & L0 & D0 & St).
  assert (Eok : forall k, ok (e k)).
  { induction k; [split; auto|]. destruct (step_form _ _ IHk (St k)) as (_ & _ & _ & _ & H). auto. }
  destruct (pigeonhole _ list_nat_eq_dec (lists_of (seq 0 M) N) e) as (i & j & Hij & E).
  { intros k _. apply in_lists_of. destruct (Eok k) as [Lk Dk]. split; auto.
    apply Forall_lt_in_seq. auto. }
  apply (grid_of_cycle (fun k => e (i + k mod (j - i))) (j - i)); [lia| | |].
  - intros k. apply Eok.
  - intros k. cbv beta. set (L := j - i) in *.
    pose proof (Nat.mod_upper_bound k L ltac:(lia)).
    assert (E' : e (i + S k mod L) = e (S (i + k mod L))).
    { pose proof (Nat.div_mod k L ltac:(lia)).
      destruct (Nat.eq_dec (S (k mod L)) L) as [EL|EL].
      - replace (S k) with (0 + (S (k / L)) * L) by nia. rewrite Nat.mod_add by lia.
        rewrite Nat.mod_0_l by lia. rewrite Nat.add_0_r. rewrite E. f_equal. lia.
      - replace (S k) with (S (k mod L) + (k / L) * L) by lia. rewrite Nat.mod_add by lia.
        rewrite Nat.mod_small by lia. f_equal. lia. }
    rewrite E'. apply St.
  - intros k. cbv beta. do 2 f_equal. replace (k + (j - i)) with (k + 1 * (j - i)) by lia.
    apply Nat.mod_add. lia.
Qed.
End Live.
