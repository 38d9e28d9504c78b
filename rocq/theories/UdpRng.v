(** The pseudo-random generator of the UDP runtime has full period. *)
From Coq Require Import List NArith ZArith Arith Bool Lia Znumtheory.
Import ListNotations.
From Verif Require Import UdpModel.
Local Open Scope N_scope.

(** * Linear maps on bit vectors *)
Definition linear (f : N -> N) : Prop := forall x y, f (N.lxor x y) = N.lxor (f x) (f y).

(** A matrix is the list of its columns. *)
Fixpoint app (cols : list N) (x : N) : N :=
  match cols with
  | [] => 0
  | c :: cs => N.lxor (if N.odd x then c else 0) (app cs (N.div2 x))
  end.
Fixpoint columns (f : N -> N) (n : nat) : list N :=
  match n with O => [] | S n' => f 1 :: columns (fun y => f (2 * y)) n' end.

Lemma lxor_swap a b c d : N.lxor (N.lxor a b) (N.lxor c d) = N.lxor (N.lxor a c) (N.lxor b d).
Proof.
  rewrite !N.lxor_assoc. f_equal. rewrite <- !N.lxor_assoc. f_equal. apply N.lxor_comm.
Qed.

Lemma odd_lxor x y : N.odd (N.lxor x y) = xorb (N.odd x) (N.odd y).
Proof. rewrite <- !N.bit0_odd. apply N.lxor_spec. Qed.
Lemma div2_lxor x y : N.div2 (N.lxor x y) = N.lxor (N.div2 x) (N.div2 y).
Proof. rewrite !N.div2_spec. apply N.shiftr_lxor. Qed.

Lemma app_linear cols : linear (app cols).
Proof.
  induction cols as [|c cs IH]; intros x y; cbn [app]; [reflexivity|].
  rewrite odd_lxor, div2_lxor, IH, lxor_swap. f_equal.
  destruct (N.odd x), (N.odd y); cbn [xorb]; now rewrite ?N.lxor_nilpotent, ?N.lxor_0_r, ?N.lxor_0_l.
Qed.

Lemma linear_0 f : linear f -> f 0 = 0.
Proof. intros L. specialize (L 0 0). rewrite !N.lxor_nilpotent in L. exact L. Qed.

Lemma double_lxor x y : 2 * N.lxor x y = N.lxor (2 * x) (2 * y).
Proof.
  replace (2 * N.lxor x y) with (N.shiftl (N.lxor x y) 1) by (rewrite N.shiftl_mul_pow2; lia).
  rewrite N.shiftl_lxor, !N.shiftl_mul_pow2. f_equal; lia.
Qed.

Lemma bit_split x : x = N.lxor (if N.odd x then 1 else 0) (2 * N.div2 x).
Proof.
  apply N.bits_inj. intros n. rewrite N.lxor_spec.
  destruct (N.eq_dec n 0) as [->|Hn].
  - rewrite N.testbit_even_0, xorb_false_r, N.bit0_odd. now destruct (N.odd x).
  - replace n with (N.succ (N.pred n)) by lia. rewrite N.testbit_even_succ by lia.
    rewrite N.div2_spec, N.shiftr_spec by lia. replace (N.pred n + 1) with (N.succ (N.pred n)) by lia.
    destruct (N.odd x); [|rewrite N.bits_0; now destruct (N.testbit _ _)].
    replace 1 with (2 * 0 + 1) at 1 by reflexivity. rewrite N.testbit_odd_succ by lia.
    rewrite N.bits_0. now destruct (N.testbit _ _).
Qed.

Lemma app_columns : forall n f x, linear f -> x < 2 ^ N.of_nat n -> app (columns f n) x = f x.
Proof.
  induction n as [|n IH]; intros f x L B.
  - cbn in B. assert (x = 0) by lia. subst. symmetry. apply linear_0; auto.
  - cbn [columns app]. rewrite IH.
    + transitivity (N.lxor (f (if N.odd x then 1 else 0)) (f (2 * N.div2 x))).
      * destruct (N.odd x); auto. now rewrite (linear_0 f L).
      * rewrite <- L. now rewrite <- bit_split.
    + intros a b. now rewrite double_lxor, L.
    + rewrite Nat2N.inj_succ, N.pow_succ_r' in B. rewrite N.div2_div. apply N.div_lt_upper_bound; lia.
Qed.

Definition mul (a b : list N) : list N := map (app a) b.
Lemma app_mul a : forall b x, app (mul a b) x = app a (app b x).
Proof.
  induction b as [|c b IH]; intros x; cbn [mul map app].
  - symmetry. apply linear_0, app_linear.
  - rewrite app_linear. fold (mul a b). rewrite IH. f_equal.
    destruct (N.odd x); auto. symmetry. apply linear_0, app_linear.
Qed.
Fixpoint mpow (a : list N) (p : positive) : list N :=
  match p with
  | xH => a
  | xO p' => let b := mpow a p' in mul b b
  | xI p' => let b := mpow a p' in mul a (mul b b)
  end.
Lemma app_mpow a : forall p x, app (mpow a p) x = Pos.iter (app a) x p.
Proof.
  induction p as [p IH|p IH|]; intros x; cbn [mpow Pos.iter]; auto.
  - now rewrite !app_mul, !IH.
  - now rewrite !app_mul, !IH.
Qed.
Fixpoint madd (a b : list N) : list N :=
  match a, b with x :: a', y :: b' => N.lxor x y :: madd a' b' | _, _ => [] end.
Lemma app_madd : forall a b x, length a = length b -> app (madd a b) x = N.lxor (app a x) (app b x).
Proof.
  induction a as [|c a IH]; intros [|d b] x L; cbn in *; try discriminate; auto.
  rewrite IH by lia. rewrite lxor_swap. f_equal. now destruct (N.odd x).
Qed.

(** * The generator step *)
Lemma mod_two32_bits x i : N.testbit (x mod two32) i = (i <? 32) && N.testbit x i.
Proof.
  change two32 with (2 ^ 32). destruct (N.ltb_spec i 32).
  - now rewrite N.mod_pow2_bits_low.
  - now rewrite N.mod_pow2_bits_high.
Qed.
Lemma mod_linear : linear (fun x => x mod two32).
Proof.
  intros x y. apply N.bits_inj. intros i. rewrite N.lxor_spec, !mod_two32_bits, N.lxor_spec.
  destruct (i <? 32); cbn; auto.
Qed.
Lemma xorshift_linear : linear rand32_xorshift.
Proof.
  assert (A : forall k, linear (fun s => N.lxor s (N.shiftl s k mod two32))).
  { intros k x y. rewrite N.shiftl_lxor, mod_linear. apply lxor_swap. }
  assert (B : forall k, linear (fun s => N.lxor s (N.shiftr s k))).
  { intros k x y. rewrite N.shiftr_lxor. apply lxor_swap. }
  intros x y. unfold rand32_xorshift. cbv zeta. rewrite (A 13 x y), (B 17), (A 5). reflexivity.
Qed.

Lemma lt32_bits x : x < two32 <-> forall i, 32 <= i -> N.testbit x i = false.
Proof.
  split.
  - intros H i Hi. rewrite <- (N.mod_small x two32 H), mod_two32_bits.
    destruct (N.ltb_spec i 32); [lia|reflexivity].
  - intros H. replace x with (x mod two32); [apply N.mod_lt; discriminate|].
    apply N.bits_inj. intros i. rewrite mod_two32_bits. destruct (N.ltb_spec i 32); auto. now rewrite H.
Qed.
Lemma lxor_lt32 x y : x < two32 -> y < two32 -> N.lxor x y < two32.
Proof.
  rewrite !lt32_bits. intros A B i Hi. now rewrite N.lxor_spec, A, B.
Qed.
Lemma shiftr_lt32 x k : x < two32 -> N.shiftr x k < two32.
Proof. rewrite !lt32_bits. intros A i Hi. rewrite N.shiftr_spec by lia. apply A. lia. Qed.
Lemma mod_lt32 x : x mod two32 < two32.
Proof. apply N.mod_lt. discriminate. Qed.
Lemma xorshift_lt s : s < two32 -> rand32_xorshift s < two32.
Proof.
  intros H. unfold rand32_xorshift. cbv zeta.
  repeat (apply lxor_lt32 || apply shiftr_lt32 || apply mod_lt32 || assumption).
Qed.

Definition M : list N := Eval vm_compute in columns rand32_xorshift 32.
Definition id32 : list N := Eval vm_compute in columns (fun x => x) 32.
Lemma app_M s : s < two32 -> app M s = rand32_xorshift s.
Proof.
  intros H. change M with (columns rand32_xorshift 32). apply app_columns; [apply xorshift_linear|exact H].
Qed.
Lemma app_id s : s < two32 -> app id32 s = s.
Proof.
  intros H. change id32 with (columns (fun x => x) 32). apply app_columns; [intros x y; reflexivity|exact H].
Qed.

Lemma xorshift_iter_lt n s : s < two32 -> xorshift_iter n s < two32.
Proof. intros H. induction n; cbn; auto. now apply xorshift_lt. Qed.
Lemma iter_M p s : s < two32 -> app (mpow M p) s = xorshift_iter (Pos.to_nat p) s.
Proof.
  intros H. rewrite app_mpow, Pos2Nat.inj_iter. induction (Pos.to_nat p) as [|n IH]; cbn [nat_rect xorshift_iter]; auto.
  unfold nat_rect in IH |- *. rewrite IH. apply app_M. now apply xorshift_iter_lt.
Qed.

(** * Period *)
Definition period : positive := 4294967295.
Lemma M_period : mpow M period = id32.
Proof. vm_compute. reflexivity. Qed.

(** M^d + 1 is invertible for the five d = period / prime. *)
Definition apart (d : positive) : bool :=
  let a := madd (mpow M d) id32 in
  if list_eq_dec N.eq_dec (mul (mpow a 4294967294) a) id32 then true else false.
Lemma M_apart : forallb apart [1431655765; 858993459; 252645135; 16711935; 65535]%positive = true.
Proof. vm_compute. reflexivity. Qed.

Lemma apart_spec d s : apart d = true -> length (mpow M d) = 32%nat -> s < two32 -> s <> 0 ->
  xorshift_iter (Pos.to_nat d) s <> s.
Proof.
  unfold apart. intros A LN B NZ E.
  destruct (list_eq_dec _ _ _) as [Q|]; [|discriminate]. clear A.
  apply NZ. rewrite <- (app_id s B), <- Q, app_mul, app_madd by (rewrite LN; reflexivity).
  rewrite iter_M, E, app_id by auto. rewrite N.lxor_nilpotent. apply linear_0, app_linear.
Qed.
Lemma M_apart_in d : In d [1431655765; 858993459; 252645135; 16711935; 65535]%positive -> apart d = true.
Proof. intros H. pose proof M_apart as A. rewrite forallb_forall in A. exact (A d H). Qed.
Lemma mpow_length a : forall p, length (mpow a p) = length a.
Proof.
  induction p; cbn [mpow]; auto; unfold mul; rewrite ?map_length; auto.
Qed.

Lemma iter_add a b s : xorshift_iter (a + b) s = xorshift_iter a (xorshift_iter b s).
Proof. induction a; cbn; auto. now rewrite IHa. Qed.

Lemma iter_period s : s < two32 -> xorshift_iter (Pos.to_nat period) s = s.
Proof. intros H. rewrite <- iter_M, M_period by exact H. apply app_id; exact H. Qed.

Lemma xorshift_inj s t : s < two32 -> t < two32 -> rand32_xorshift s = rand32_xorshift t -> s = t.
Proof.
  intros Hs Ht E. pose proof (iter_period s Hs) as Ps. pose proof (iter_period t Ht) as Pt.
  pose proof (Pos2Nat.is_pos period) as HP. revert Ps Pt HP. generalize (Pos.to_nat period). intros n Ps Pt HP.
  destruct n as [|n]; [lia|]. replace (S n) with (n + 1)%nat in * by lia.
  rewrite iter_add in Ps, Pt. cbn [xorshift_iter] in Ps, Pt. rewrite E in Ps. congruence.
Qed.
Lemma iter_inj n s t : s < two32 -> t < two32 -> xorshift_iter n s = xorshift_iter n t -> s = t.
Proof.
  intros Hs Ht. induction n; cbn; auto. intros E. apply IHn, xorshift_inj; auto using xorshift_iter_lt.
Qed.
Lemma iter_zero n : xorshift_iter n 0 = 0.
Proof. induction n; cbn [xorshift_iter]; auto. rewrite IHn. reflexivity. Qed.
Lemma iter_nonzero n s : s < two32 -> s <> 0 -> xorshift_iter n s <> 0.
Proof.
  intros H NZ E. apply NZ. apply (iter_inj n); auto; [reflexivity|]. rewrite E. symmetry. apply iter_zero.
Qed.

Opaque apart.

(** Numbers of steps that return to s. *)
Definition returns (s : N) (z : Z) : Prop := xorshift_iter (Z.to_nat z) s = s.
Lemma returns_mul s a q : (0 <= a)%Z -> (0 <= q)%Z -> returns s a -> returns s (q * a).
Proof.
  intros Ha Hq R. unfold returns in *. rewrite Z2Nat.inj_mul by lia.
  induction (Z.to_nat q) as [|n IH]; cbn; auto. rewrite iter_add, IH. exact R.
Qed.
Lemma returns_mod s a b : s < two32 -> (0 <= a)%Z -> (0 < b)%Z -> returns s a -> returns s b -> returns s (a mod b).
Proof.
  intros H Ha Hb Ra Rb. pose proof (Z.div_mod a b ltac:(lia)) as E.
  pose proof (Z.mod_pos_bound a b Hb). assert (0 <= a / b)%Z by (apply Z.div_pos; lia).
  unfold returns in *. rewrite E in Ra at 1. rewrite Z.add_comm, Z.mul_comm, Z2Nat.inj_add, iter_add in Ra by lia.
  rewrite (returns_mul s b (a / b)) in Ra; auto; lia.
Qed.
Lemma returns_gcd s : s < two32 -> forall n a b, (0 <= a < Z.of_nat n)%Z -> (0 <= b)%Z -> returns s a -> returns s b ->
  returns s (Z.gcd a b).
Proof.
  intros H. induction n as [|n IH]; intros a b Ha Hb Ra Rb; [lia|].
  destruct (Z.eq_dec a 0) as [->|].
  { rewrite Z.gcd_0_l, Z.abs_eq by auto. exact Rb. }
  rewrite <- Z.gcd_mod by auto. rewrite Z.gcd_comm.
  pose proof (Z.mod_pos_bound b a ltac:(lia)).
  rewrite Z.gcd_comm. apply IH; auto; try lia. apply returns_mod; auto; lia.
Qed.

Fixpoint no_divisor (n : nat) (d p : N) : bool :=
  match n with
  | O => true
  | S n' => negb (p mod d =? 0) && no_divisor n' (d + 1) p
  end.
Lemma no_divisor_spec p : forall n d0, no_divisor n d0 p = true ->
  forall d, d0 <= d -> d < d0 + N.of_nat n -> p mod d <> 0.
Proof.
  induction n as [|n IH]; intros d0 H d D1 D2; [cbn in D2; lia|].
  cbn [no_divisor] in H. apply andb_true_iff in H. destruct H as [H1 H2].
  destruct (N.eq_dec d d0) as [->|]; [|apply (IH (d0 + 1)); auto; lia].
  apply negb_true_iff, N.eqb_neq in H1. exact H1.
Qed.
(** If 2..p-1 do not divide p then gcd(q, p) is 1 or p divides q. *)
Lemma prime_gcd p q : (1 < p)%Z -> no_divisor (Z.to_nat (p - 2)) 2 (Z.to_N p) = true -> (0 <= q)%Z ->
  Z.gcd q p = 1%Z \/ (p | q)%Z.
Proof.
  intros Hp ND Hq. pose proof (Z.gcd_nonneg q p). pose proof (Z.gcd_divide_r q p) as D.
  pose proof (Z.gcd_divide_l q p) as D'. set (g := Z.gcd q p) in *. clearbody g.
  assert (g <= p)%Z by (apply Z.divide_pos_le in D; lia).
  assert (g <> 0)%Z by (intros ->; destruct D; lia).
  destruct (Z.eq_dec g 1); auto. destruct (Z.eq_dec g p) as [->|]; auto.
  exfalso. apply (no_divisor_spec _ _ _ ND (Z.to_N g)); [lia|lia|].
  apply N2Z.inj. rewrite N2Z.inj_mod by lia. rewrite !Z2N.id by lia. apply Z.mod_divide; auto.
Qed.

Definition primes : list Z := [3; 5; 17; 257; 65537]%Z.
Lemma primes_ok : forallb (fun p => (1 <? p)%Z && no_divisor (Z.to_nat (p - 2)) 2 (Z.to_N p)) primes = true.
Proof. vm_compute. reflexivity. Qed.

Lemma coprime_prod : forall ps q, (0 <= q)%Z ->
  (forall p, In p ps -> Z.gcd q p = 1%Z) -> Z.gcd q (fold_right Z.mul 1%Z ps) = 1%Z.
Proof.
  induction ps as [|p ps IH]; intros q Hq H; cbn [fold_right].
  - apply Z.gcd_1_r.
  - apply Zgcd_1_rel_prime, rel_prime_mult; apply Zgcd_1_rel_prime; [apply H; cbn; auto|].
    apply IH; auto. intros p' Hp'. apply H; cbn; auto.
Qed.

Lemma full_divisor g : (0 < g)%Z -> (g | Zpos period)%Z -> g = Zpos period \/
  exists p, In p primes /\ (g | Zpos period / p)%Z.
Proof.
  intros Hg [q E]. assert (Hq : (0 < q)%Z) by (unfold period in E; nia).
  destruct (Exists_dec (fun p => (p | q)%Z) primes) as [X|X].
  { intros p. apply Zdivide_dec. }
  - right. apply Exists_exists in X. destruct X as (p & Hp & [r Er]). exists p. split; auto.
    exists r. subst q.
    assert (p <> 0)%Z. { intros ->. lia. }
    rewrite E. replace (r * p * g)%Z with (r * g * p)%Z by ring. rewrite Z.div_mul; auto.
  - left. assert (C : Z.gcd q (fold_right Z.mul 1%Z primes) = 1%Z).
    { apply coprime_prod; [lia|]. intros p Hp.
      pose proof primes_ok as K. rewrite forallb_forall in K. specialize (K p Hp).
      apply andb_true_iff in K. destruct K as [K1 K2]. apply Z.ltb_lt in K1.
      destruct (prime_gcd p q K1 K2 ltac:(lia)); auto. exfalso. apply X, Exists_exists. eauto. }
    change (fold_right Z.mul 1%Z primes) with (Zpos period) in C.
    assert (Q : (q | Zpos period)%Z) by (exists g; lia).
    assert (q | 1)%Z by (rewrite <- C; apply Z.gcd_greatest; auto; apply Z.divide_refl).
    assert (q = 1%Z) by (apply Z.divide_1_r_nonneg; auto; lia). subst. lia.
Qed.

Lemma returns_iff s z : s < two32 -> s <> 0 -> (0 <= z)%Z -> (returns s z <-> (Zpos period | z)%Z).
Proof.
  intros H NZ Hz. split.
  - intros R. assert (RP : returns s (Zpos period)) by (unfold returns; rewrite Z2Nat.inj_pos; apply iter_period; exact H).
    assert (RG : returns s (Z.gcd z (Zpos period))).
    { apply (returns_gcd s H (S (Z.to_nat z))); auto; lia. }
    pose proof (Z.gcd_divide_l z (Zpos period)) as DL. pose proof (Z.gcd_divide_r z (Zpos period)) as DR.
    pose proof (Z.gcd_nonneg z (Zpos period)).
    set (g := Z.gcd z (Zpos period)) in *. clearbody g.
    assert (g <> 0)%Z by (intros ->; destruct DR; unfold period in *; lia).
    destruct (full_divisor g) as [->|(p & Hp & D)]; auto; [lia|].
    exfalso. destruct D as [r Er].
    assert (RR : returns s (Zpos period / p)).
    { rewrite Er. apply returns_mul; [lia| |exact RG].
      assert (0 <= Zpos period / p)%Z by (apply Z.div_pos; [lia|]; pose proof primes_ok as K; rewrite forallb_forall in K;
        specialize (K p Hp); apply andb_true_iff in K; destruct K as [K _]; apply Z.ltb_lt in K; lia).
      nia. }
    assert (F : forall d, apart d = true -> returns s (Zpos d) -> False).
    { intros d Ad Rd. apply (apart_spec d s Ad); [rewrite mpow_length; reflexivity|exact H|exact NZ|].
      unfold returns in Rd. rewrite Z2Nat.inj_pos in Rd. exact Rd. }
    assert (K : exists d, In d [1431655765; 858993459; 252645135; 16711935; 65535]%positive /\ (Zpos period / p = Zpos d)%Z).
    { clear - Hp. destruct Hp as [<-|[<-|[<-|[<-|[<-|[]]]]]].
      - exists 1431655765%positive. split; [cbn [In]; auto|reflexivity].
      - exists 858993459%positive. split; [cbn [In]; auto|reflexivity].
      - exists 252645135%positive. split; [cbn [In]; auto|reflexivity].
      - exists 16711935%positive. split; [cbn [In]; auto|reflexivity].
      - exists 65535%positive. split; [cbn [In]; auto 6|reflexivity]. }
    destruct K as (d & Kd & Ed). rewrite Ed in RR. apply (F d); [apply M_apart_in; exact Kd|exact RR].
  - intros [q ->]. apply returns_mul; [lia|unfold period in *; nia|].
    unfold returns. rewrite Z2Nat.inj_pos. apply iter_period; exact H.
Qed.

Lemma full_period s a b : s < two32 -> s <> 0 ->
  (xorshift_iter a s = xorshift_iter b s <-> (Z.of_nat a mod Zpos period = Z.of_nat b mod Zpos period)%Z).
Proof.
  intros H NZ. revert a b.
  assert (W : forall a b, (a <= b)%nat ->
    (xorshift_iter a s = xorshift_iter b s <-> (Z.of_nat a mod Zpos period = Z.of_nat b mod Zpos period)%Z)).
  { intros a b L. replace b with (a + (b - a))%nat by lia.
    assert (E : xorshift_iter a s = xorshift_iter (a + (b - a)) s <-> returns s (Z.of_nat (b - a))).
    { unfold returns. rewrite Nat2Z.id, iter_add. split.
      - intros E. apply iter_inj in E; auto using xorshift_iter_lt.
      - now intros ->. }
    rewrite E, returns_iff by (auto; lia). rewrite Nat2Z.inj_add.
    set (x := Z.of_nat a). set (y := Z.of_nat (b - a)). split.
    - intros [q ->]. now rewrite Z.mod_add by discriminate.
    - intros Q. apply Z.mod_divide; [discriminate|].
      replace y with ((x + y) - x)%Z by ring. rewrite Zminus_mod, <- Q, Z.sub_diag. reflexivity. }
  intros a b. destruct (Nat.le_ge_cases a b); [apply W; auto|].
  split; intros E; symmetry; apply W; auto.
Qed.

(** * Seeding *)
Lemma xorshiftr_inj k x y : 0 < k -> x < two32 -> y < two32 ->
  N.lxor x (N.shiftr x k) = N.lxor y (N.shiftr y k) -> x = y.
Proof.
  intros Hk Hx Hy E. rewrite lt32_bits in Hx, Hy.
  assert (B : forall n i, (32 - i < N.of_nat n) -> N.testbit x i = N.testbit y i).
  { induction n as [|n IH]; intros i Hi; [lia|].
    destruct (N.le_gt_cases 32 i) as [G|G]; [now rewrite Hx, Hy|].
    pose proof (f_equal (fun z => N.testbit z i) E) as Q. cbn beta in Q.
    rewrite !N.lxor_spec, !N.shiftr_spec in Q by lia. rewrite (IH (i + k)) in Q by lia.
    destruct (N.testbit x i), (N.testbit y i), (N.testbit y (i + k)); cbn in Q; congruence. }
  apply N.bits_inj. intros i. apply (B 40%nat). lia.
Qed.
Lemma odd_mul_inj c d x y : (c * d) mod two32 = 1 -> x < two32 -> y < two32 ->
  (x * c) mod two32 = (y * c) mod two32 -> x = y.
Proof.
  intros I Hx Hy E.
  assert (K : forall z, z < two32 -> (((z * c) mod two32) * d) mod two32 = z).
  { intros z Hz. rewrite N.mul_mod_idemp_l by discriminate. rewrite <- N.mul_assoc.
    rewrite <- N.mul_mod_idemp_r by discriminate. rewrite I, N.mul_1_r. now apply N.mod_small. }
  rewrite <- (K x Hx), <- (K y Hy). now rewrite E.
Qed.
Lemma lxor_inj_l c x y : N.lxor c x = N.lxor c y -> x = y.
Proof.
  intros E. rewrite <- (N.lxor_0_l x), <- (N.lxor_0_l y), <- (N.lxor_nilpotent c), !N.lxor_assoc. now rewrite E.
Qed.
Lemma hash_inj x y : x < two32 -> y < two32 -> hash32_wang x = hash32_wang y -> x = y.
Proof.
  intros Hx Hy E. unfold hash32_wang in E. cbv zeta in E.
  apply (xorshiftr_inj 15) in E; [|lia|apply mod_lt32|apply mod_lt32].
  apply (odd_mul_inj 668265261 4218002597) in E.
  2: vm_compute; reflexivity.
  2,3: apply lxor_lt32; [apply mod_lt32|apply shiftr_lt32, mod_lt32].
  apply (xorshiftr_inj 4) in E; [|lia|apply mod_lt32|apply mod_lt32].
  apply (odd_mul_inj 9 954437177) in E.
  2: vm_compute; reflexivity.
  2,3: apply lxor_lt32; [apply lxor_lt32; [assumption|reflexivity]|apply shiftr_lt32; assumption].
  rewrite <- !(N.lxor_comm 61), !N.lxor_assoc in E. apply lxor_inj_l in E.
  apply (xorshiftr_inj 16) in E; auto. lia.
Qed.
Lemma hash_lt x : hash32_wang x < two32.
Proof.
  unfold hash32_wang. cbv zeta. apply lxor_lt32; [apply mod_lt32|apply shiftr_lt32, mod_lt32].
Qed.
Lemma hash_zero x : x < two32 -> (hash32_wang x = 0 <-> x = 61).
Proof.
  intros H. change 0 with (hash32_wang 61). split; [apply hash_inj; auto; reflexivity|now intros ->].
Qed.
