From Coq Require Import List Arith Bool Lia.
From Verif Require Import FinLib FmlaModel FmlaSpec.
Import ListNotations.

Lemma Forall2_lt_nth : forall s ds, Forall2 lt s ds <->
  length s = length ds /\ forall k, k < length ds -> nth k s 0 < nth k ds 0.
Proof.
  intros s ds; split.
  - intro H; induction H as [|x d s ds L H [IL IH]]; cbn [length nth]; [split; auto; intros; lia|].
    split; [congruence|]. intros [|k] K; [auto|apply IH; lia].
  - revert ds; induction s as [|x s IH]; intros [|d ds] [L H]; cbn in L; try lia; constructor.
    + apply (H 0); cbn; lia.
    + apply IH; split; [lia|]. intros k K; apply (H (S k)); cbn; lia.
Qed.

Lemma in_assignments : forall ds e, In e (assignments ds) <-> Forall2 lt e ds.
Proof.
  induction ds as [|d ds IH]; intro e; cbn [assignments].
  - split; [intros [<-|[]]; constructor|]. intro H; inversion H; left; auto.
  - rewrite in_flat_map; split.
    + intros (v & V & H). apply in_map_iff in H as (e' & <- & H). apply in_seq in V.
      constructor; [lia|]. apply IH, H.
    + intro H; inversion H as [|x d' e' ds' L H']; subst.
      exists x; split; [apply in_seq; lia|]. apply in_map, IH, H'.
Qed.

Lemma tripl : forall x, exists k, x = 3 * k \/ x = 3 * k + 1 \/ x = 3 * k + 2.
Proof.
  intro x; exists (x / 3). pose proof (Nat.div_mod x 3). pose proof (Nat.mod_upper_bound x 3). lia.
Qed.

Lemma join_length : forall a i p, length i = length a -> length p = length a ->
  length (join a i p) = 3 * length a.
Proof.
  induction a as [|x a IH]; intros [|y i] [|z p] Li Lp; cbn [length] in *; try lia; auto.
  cbn [join length]. rewrite IH; lia.
Qed.

Lemma nth_join : forall a i p k, length i = length a -> length p = length a ->
  nth (3 * k) (join a i p) 0 = nth k a 0 /\
  nth (3 * k + 1) (join a i p) 0 = nth k i 0 /\
  nth (3 * k + 2) (join a i p) 0 = nth k p 0.
Proof.
  induction a as [|x a IH]; intros [|y i] [|z p] k Li Lp; cbn [length] in *; try lia.
  - cbn [join]. rewrite !nth_overflow by (cbn; lia). auto.
  - destruct k as [|k]; [auto|].
    replace (3 * S k) with (S (S (S (3 * k)))) by lia. cbn [join nth Nat.add].
    apply IH; lia.
Qed.

Lemma nth_mdd_doms : forall ds k,
  nth (3 * k) (mdd_doms ds) 0 = nth k ds 0 /\
  nth (3 * k + 1) (mdd_doms ds) 0 = nth k ds 0 /\
  nth (3 * k + 2) (mdd_doms ds) 0 = nth k ds 0.
Proof.
  unfold mdd_doms; induction ds as [|d ds IH]; intro k.
  - cbn [flat_map]. rewrite !nth_overflow by (cbn; lia). auto.
  - destruct k as [|k]; [auto|].
    replace (3 * S k) with (S (S (S (3 * k)))) by lia. cbn [flat_map app nth Nat.add]. apply IH.
Qed.

Lemma mdd_doms_length : forall ds, length (mdd_doms ds) = 3 * length ds.
Proof. unfold mdd_doms; induction ds as [|d ds IH]; cbn [flat_map app length]; lia. Qed.

Lemma join_decomp : forall ds e, Forall2 lt e (mdd_doms ds) ->
  exists a i p, ok ds a /\ ok ds i /\ ok ds p /\ e = join a i p.
Proof.
  unfold ok, mdd_doms; induction ds as [|d ds IH]; intros e H; cbn [flat_map app] in H.
  - inversion H; subst. exists [], [], []; repeat split; constructor.
  - inversion H as [|x ? e1 ? X H1]; subst. inversion H1 as [|y ? e2 ? Y H2]; subst.
    inversion H2 as [|z ? e3 ? Z H3]; subst.
    destruct (IH _ H3) as (a & i & p & A & I & P & ->).
    exists (x :: a), (y :: i), (z :: p). repeat split; try constructor; auto.
Qed.

Lemma join_range : forall ds a i p, ok ds a -> ok ds i -> ok ds p -> Forall2 lt (join a i p) (mdd_doms ds).
Proof.
  unfold ok, mdd_doms; intros ds a i p A; revert i p.
  induction A as [|x d a ds X A IH]; intros i p I P; inversion I; inversion P; subst; cbn [join flat_map app];
    repeat constructor; auto.
Qed.

Lemma ok_length : forall ds s, ok ds s -> length s = length ds.
Proof. intros ds s H; apply Forall2_lt_nth in H; tauto. Qed.
Lemma ok_nth : forall ds s k, ok ds s -> k < length ds -> nth k s 0 < nth k ds 0.
Proof. intros ds s k H; apply Forall2_lt_nth in H; apply H. Qed.

Section P.
Variable ds : list nat.
Notation ok := (ok ds).
Notation n := (length ds).
Ltac len := repeat match goal with H : ok ?s |- _ => let X := fresh in pose proof (ok_length ds s H) as X; revert H end; intros; congruence || lia.

Lemma forall_assignments : forall (q : list nat -> bool),
  forallb q (assignments (mdd_doms ds)) = true <->
  forall a i p, ok a -> ok i -> ok p -> q (join a i p) = true.
Proof.
  intro q; rewrite forallb_forall; split.
  - intros H a i p A I P. apply H, in_assignments, join_range; auto.
  - intros H e E. apply in_assignments, join_decomp in E as (a & i & p & A & I & P & ->). auto.
Qed.

(** ** Quantification *)
Lemma smooth_iff : forall f ids e, length e = 3 * n -> Forall (fun x => x < 3 * n) ids ->
  (mdd_smooth ds f ids e = true <->
   exists e', length e' = 3 * n /\ (forall x, x < 3 * n -> ~ In x ids -> nth x e' 0 = nth x e 0) /\
     (forall x, In x ids -> nth x e' 0 < nth x (mdd_doms ds) 0) /\ f e' = true).
Proof.
  intros f ids; induction ids as [|x ids IH]; intros e L F; cbn [mdd_smooth].
  - split.
    + intro H; exists e; repeat split; auto. intros x [].
    + intros (e' & L' & H & _ & E). replace e with e'; [auto|].
      apply list_ext_nth with (d := 0); [congruence|]. intros; apply H; auto; lia.
  - inversion F as [|? ? X F']; subst. rewrite existsb_exists; split.
    + intros (v & V & H). apply in_seq in V. apply IH in H as (e' & L' & O & R & E); [|rewrite upd_length; auto|auto].
      exists e'; repeat split; auto.
      * intros y Y N. rewrite O by (auto; intro C; apply N; right; auto).
        apply nth_upd_other. intro C; apply N; left; auto.
      * intros y [<-|Y]; [|auto].
        destruct (in_dec Nat.eq_dec x ids) as [i|i]; [auto|].
        rewrite O by auto. rewrite nth_upd_same by lia. lia.
    + intros (e' & L' & O & R & E). exists (nth x e' 0); split.
      * apply in_seq. specialize (R x (or_introl eq_refl)). lia.
      * apply IH; [rewrite upd_length; auto|auto|]. exists e'; repeat split; auto.
        -- intros y Y N. destruct (Nat.eq_dec y x) as [->|D].
           ++ rewrite nth_upd_same; lia.
           ++ rewrite nth_upd_other by auto. apply O; auto. intros [C|C]; auto.
        -- intros y Y; apply R; right; auto.
Qed.

Lemma join_ext : forall e a i p, ok a -> ok i -> ok p -> length e = 3 * n ->
  (forall k, k < n -> nth (3 * k) e 0 = nth k a 0 /\ nth (3 * k + 1) e 0 = nth k i 0 /\ nth (3 * k + 2) e 0 = nth k p 0) ->
  e = join a i p.
Proof.
  intros e a i p A I P L H. pose proof (ok_length _ _ A). pose proof (ok_length _ _ I). pose proof (ok_length _ _ P).
  apply list_ext_nth with (d := 0); [rewrite join_length; lia|].
  intros x X. destruct (tripl x) as (k & K). assert (k < n) as KN by lia.
  destruct (H k KN) as (K1 & K2 & K3). destruct (nth_join a i p k) as (J1 & J2 & J3); try lia.
  destruct K as [->|[->| ->]]; congruence.
Qed.

(** An environment splits into its three copies. *)
Definition part (r : nat) (e : list nat) : list nat := map (fun k => nth (3 * k + r) e 0) (seq 0 n).
Lemma part_length : forall r e, length (part r e) = n.
Proof. intros; unfold part; rewrite map_length, seq_length; auto. Qed.
Lemma part_nth : forall r e k, k < n -> nth k (part r e) 0 = nth (3 * k + r) e 0.
Proof.
  intros r e k K; unfold part.
  rewrite nth_indep with (d' := nth (3 * 0 + r) e 0) by (rewrite map_length, seq_length; auto).
  rewrite map_nth with (f := fun k => nth (3 * k + r) e 0), seq_nth by auto. auto.
Qed.

Definition over (l x y : list nat) : list nat :=
  map (fun k => if existsb (Nat.eqb k) l then nth k x 0 else nth k y 0) (seq 0 n).
Lemma over_nth : forall l x y k, k < n ->
  nth k (over l x y) 0 = if existsb (Nat.eqb k) l then nth k x 0 else nth k y 0.
Proof.
  intros l x y k K; unfold over. set (f := fun k => _).
  rewrite nth_indep with (d' := f 0) by (rewrite map_length, seq_length; auto).
  rewrite map_nth with (f := f), seq_nth by auto. auto.
Qed.
Lemma mem_iff : forall k l, existsb (Nat.eqb k) l = true <-> In k l.
Proof.
  intros k l; rewrite existsb_exists; split; [intros (x & X & E); apply Nat.eqb_eq in E; subst; auto|].
  intro H; exists k; split; auto; apply Nat.eqb_refl.
Qed.
Lemma over_in : forall l x y k, k < n -> In k l -> nth k (over l x y) 0 = nth k x 0.
Proof. intros l x y k K H; rewrite over_nth by auto. apply mem_iff in H; rewrite H; auto. Qed.
Lemma over_out : forall l x y k, k < n -> ~ In k l -> nth k (over l x y) 0 = nth k y 0.
Proof.
  intros l x y k K H; rewrite over_nth by auto. destruct (existsb _ l) eqn:E; auto. apply mem_iff in E; tauto.
Qed.
Lemma over_length : forall l x y, length (over l x y) = n.
Proof. intros; unfold over; rewrite map_length, seq_length; auto. Qed.
Lemma over_ok : forall l x y, ok x -> ok y -> ok (over l x y).
Proof.
  intros l x y X Y; apply Forall2_lt_nth; split; [apply over_length|].
  intros k K; rewrite over_nth by auto. destruct (existsb _ l); apply ok_nth; auto.
Qed.
Lemma over_all : forall x y, ok x -> over (all_ids ds) x y = x.
Proof.
  intros x y X. apply list_ext_nth with (d := 0); [rewrite over_length; symmetry; apply ok_length; auto|].
  intros k K. rewrite over_length in K. apply over_in; auto. apply in_seq; lia.
Qed.
Lemma over_agree : forall l x y, agree_off ds l (over l x y) y.
Proof. intros l x y k K N; apply over_out; auto. Qed.
Lemma agree_over : forall l x y, ok x -> agree_off ds l x y -> over l x y = x.
Proof.
  intros l x y X A. apply list_ext_nth with (d := 0); [rewrite over_length; symmetry; apply ok_length; auto|].
  intros k K. rewrite over_length in K. rewrite over_nth by auto. destruct (existsb _ l) eqn:E; auto.
  symmetry; apply A; auto. intro C; apply mem_iff in C; congruence.
Qed.
Lemma agree_all : forall x y, agree_off ds (all_ids ds) x y.
Proof. intros x y k K N; exfalso; apply N, in_seq; lia. Qed.

Notation wf_ids := (wf_ids ds).
Lemma wf_all : wf_ids (all_ids ds).
Proof. apply Forall_forall; intros x X; apply in_seq in X; lia. Qed.

Lemma copy_bound : forall (c : nat) l, c < 3 -> wf_ids l ->
  Forall (fun x => x < 3 * n) (map (fun i => 3 * i + c) l).
Proof.
  intros c l C W; apply Forall_forall; intros x X. apply in_map_iff in X as (k & <- & K).
  unfold FmlaSpec.wf_ids in W; rewrite Forall_forall in W. specialize (W k K). lia.
Qed.

Lemma smooth_copy : forall (f : list nat -> bool) r l a i p, r < 3 -> wf_ids l -> ok a -> ok i -> ok p ->
  (mdd_smooth ds f (map (fun k => 3 * k + r) l) (join a i p) = true <->
   match r with
   | 0 => exists a', ok a' /\ agree_off ds l a' a /\ f (join a' i p) = true
   | 1 => exists i', ok i' /\ agree_off ds l i' i /\ f (join a i' p) = true
   | _ => exists p', ok p' /\ agree_off ds l p' p /\ f (join a i p') = true
   end).
Proof.
  intros f r l a i p R W A I P.
  pose proof (ok_length _ _ A). pose proof (ok_length _ _ I). pose proof (ok_length _ _ P).
  rewrite smooth_iff; [|rewrite join_length; lia|apply copy_bound; auto].
  assert (NI : forall r' k, r' <> r -> r' < 3 -> ~ In (3 * k + r') (map (fun k => 3 * k + r) l)).
  { intros r' k D D' C. apply in_map_iff in C as (k' & E & _). lia. }
  assert (NK : forall k, ~ In k l -> ~ In (3 * k + r) (map (fun k => 3 * k + r) l)).
  { intros k D C. apply in_map_iff in C as (k' & E & C). apply D. replace k with k' by lia; auto. }
  assert (IK : forall k, In k l -> In (3 * k + r) (map (fun k => 3 * k + r) l)).
  { intros k C. apply in_map_iff; eauto. }
  assert (JN : forall k, nth (3 * k) (join a i p) 0 = nth k a 0 /\
     nth (3 * k + 1) (join a i p) 0 = nth k i 0 /\ nth (3 * k + 2) (join a i p) 0 = nth k p 0)
    by (intro k; apply nth_join; lia).
  assert (DN := nth_mdd_doms ds).
  assert (G : forall e, length e = 3 * n -> (forall x, In x (map (fun k => 3 * k + r) l) -> nth x e 0 < nth x (mdd_doms ds) 0) ->
     (forall k, k < n -> ~ In k l -> nth (3 * k + r) e 0 = nth (3 * k + r) (join a i p) 0) -> ok (part r e)).
  { intros e L D O. apply Forall2_lt_nth; split; [apply part_length|]. intros k K. rewrite part_nth by auto.
    destruct (in_dec Nat.eq_dec k l) as [i0|i0].
    - specialize (D _ (IK k i0)). destruct (DN k) as (D0 & D1 & D2).
      destruct r as [|[|[|r]]]; try lia; rewrite ?Nat.add_0_r in *; lia.
    - rewrite O by auto. destruct (JN k) as (J0 & J1 & J2).
      destruct r as [|[|[|r]]]; try lia; rewrite ?Nat.add_0_r in *; [rewrite J0|rewrite J1|rewrite J2]; apply ok_nth; auto. }
  destruct r as [|[|[|r]]]; [| | |lia].
  - split.
    + intros (e & L & O & D & E). exists (part 0 e).
      assert (ok (part 0 e)) by (apply G; auto; intros; apply O; auto; lia).
      split; [auto|split].
      * intros k K N. rewrite part_nth by auto. rewrite O by (auto; lia). rewrite Nat.add_0_r; apply JN.
      * replace (join (part 0 e) i p) with e; [auto|]. apply join_ext; auto.
        intros k K. rewrite part_nth by auto. rewrite Nat.add_0_r. split; [auto|].
        rewrite !O by (auto; try lia; apply NI; lia). destruct (JN k) as (? & ? & ?); auto.
    + intros (a' & A' & O & E). pose proof (ok_length _ _ A'). exists (join a' i p). repeat split; auto.
      * rewrite join_length; lia.
      * intros x X N. destruct (tripl x) as (k & K). assert (KN : k < n) by lia.
        destruct (JN k) as (J0 & J1 & J2). destruct (nth_join a' i p k) as (M0 & M1 & M2); try lia.
        destruct K as [->|[->| ->]]; try congruence. rewrite M0, J0. apply O; auto. intro C; apply N.
        specialize (IK k C); rewrite Nat.add_0_r in IK; auto.
      * intros x X. apply in_map_iff in X as (k & <- & K). rewrite Nat.add_0_r.
        unfold FmlaSpec.wf_ids in W; rewrite Forall_forall in W; specialize (W k K).
        destruct (nth_join a' i p k) as (M0 & M1 & M2); try lia. destruct (DN k) as (D0 & _). rewrite M0, D0.
        apply ok_nth; auto.
  - split.
    + intros (e & L & O & D & E). exists (part 1 e).
      assert (ok (part 1 e)) by (apply G; auto; intros; apply O; auto; lia).
      split; [auto|split].
      * intros k K N. rewrite part_nth by auto. rewrite O by (auto; lia). apply JN.
      * replace (join a (part 1 e) p) with e; [auto|]. apply join_ext; auto.
        intros k K. rewrite part_nth by auto. destruct (JN k) as (J0 & J1 & J2).
        replace (3 * k) with (3 * k + 0) at 1 by lia.
        rewrite !(O (3 * k + 0)), !(O (3 * k + 2)) by (auto; try lia; apply NI; lia).
        rewrite Nat.add_0_r; auto.
    + intros (a' & A' & O & E). pose proof (ok_length _ _ A'). exists (join a a' p). repeat split; auto.
      * rewrite join_length; lia.
      * intros x X N. destruct (tripl x) as (k & K). assert (KN : k < n) by lia.
        destruct (JN k) as (J0 & J1 & J2). destruct (nth_join a a' p k) as (M0 & M1 & M2); try lia.
        destruct K as [->|[->| ->]]; try congruence. rewrite M1, J1. apply O; auto.
      * intros x X. apply in_map_iff in X as (k & <- & K).
        unfold FmlaSpec.wf_ids in W; rewrite Forall_forall in W; specialize (W k K).
        destruct (nth_join a a' p k) as (M0 & M1 & M2); try lia. destruct (DN k) as (D0 & D1 & _). rewrite M1, D1.
        apply ok_nth; auto.
  - split.
    + intros (e & L & O & D & E). exists (part 2 e).
      assert (ok (part 2 e)) by (apply G; auto; intros; apply O; auto; lia).
      split; [auto|split].
      * intros k K N. rewrite part_nth by auto. rewrite O by (auto; lia). apply JN.
      * replace (join a i (part 2 e)) with e; [auto|]. apply join_ext; auto.
        intros k K. rewrite part_nth by auto. destruct (JN k) as (J0 & J1 & J2).
        replace (3 * k) with (3 * k + 0) at 1 by lia.
        rewrite !(O (3 * k + 0)), !(O (3 * k + 1)) by (auto; try lia; apply NI; lia).
        rewrite Nat.add_0_r; auto.
    + intros (a' & A' & O & E). pose proof (ok_length _ _ A'). exists (join a i a'). repeat split; auto.
      * rewrite join_length; lia.
      * intros x X N. destruct (tripl x) as (k & K). assert (KN : k < n) by lia.
        destruct (JN k) as (J0 & J1 & J2). destruct (nth_join a i a' k) as (M0 & M1 & M2); try lia.
        destruct K as [->|[->| ->]]; try congruence. rewrite M2, J2. apply O; auto.
      * intros x X. apply in_map_iff in X as (k & <- & K).
        unfold FmlaSpec.wf_ids in W; rewrite Forall_forall in W; specialize (W k K).
        destruct (nth_join a i a' k) as (M0 & M1 & M2); try lia. destruct (DN k) as (D0 & D1 & D2). rewrite M2, D2.
        apply ok_nth; auto.
Qed.

Lemma aux_map : forall l, map aux_id l = map (fun k => 3 * k + 0) l.
Proof. intro l; apply map_ext; intro; unfold aux_id; lia. Qed.

Lemma smooth_aux : forall f l a i p, wf_ids l -> ok a -> ok i -> ok p ->
  (mdd_smooth ds f (map aux_id l) (join a i p) = true <->
   exists a', ok a' /\ agree_off ds l a' a /\ f (join a' i p) = true).
Proof. intros; rewrite aux_map; apply (smooth_copy f 0 l a i p); auto; lia. Qed.
Lemma smooth_img : forall f l a i p, wf_ids l -> ok a -> ok i -> ok p ->
  (mdd_smooth ds f (map img_id l) (join a i p) = true <->
   exists i', ok i' /\ agree_off ds l i' i /\ f (join a i' p) = true).
Proof. intros; apply (smooth_copy f 1 l a i p); auto; lia. Qed.
Lemma smooth_pre : forall f l a i p, wf_ids l -> ok a -> ok i -> ok p ->
  (mdd_smooth ds f (map pre_id l) (join a i p) = true <->
   exists p', ok p' /\ agree_off ds l p' p /\ f (join a i p') = true).
Proof. intros; apply (smooth_copy f 2 l a i p); auto; lia. Qed.

(** ** Renaming *)
Lemma lookup_in : forall (o m : nat -> nat) l k, (forall x y : nat, o x = o y -> x = y) -> In k l ->
  lookup (map o l) (map m l) (o k) = m k.
Proof.
  intros o m l k INJ; induction l as [|x l IH]; [intros []|]; intro H; cbn [map lookup].
  destruct (Nat.eqb_spec (o k) (o x)) as [e|ne].
  - apply INJ in e; subst; auto.
  - apply IH. destruct H as [->|]; [congruence|auto].
Qed.
Lemma lookup_out : forall (o m : nat -> nat) l x, ~ In x (map o l) -> lookup (map o l) (map m l) x = x.
Proof.
  intros o m l x; induction l as [|y l IH]; cbn [map lookup]; intro H; auto.
  destruct (Nat.eqb_spec x (o y)) as [e|ne]; [exfalso; apply H; left; auto|]. apply IH. intro C; apply H; right; auto.
Qed.

Lemma substitute_copy : forall f (ro rn : nat) l a i p, ro < 3 -> rn < 3 -> wf_ids l -> ok a -> ok i -> ok p ->
  let src := match rn with 0 => a | 1 => i | _ => p end in
  mdd_substitute f (map (fun k => 3 * k + ro) l) (map (fun k => 3 * k + rn) l) (join a i p) =
  match ro with
  | 0 => f (join (over l src a) i p)
  | 1 => f (join a (over l src i) p)
  | _ => f (join a i (over l src p))
  end.
Proof.
  intros f ro rn l a i p Ro Rn W A I P src.
  pose proof (ok_length _ _ A). pose proof (ok_length _ _ I). pose proof (ok_length _ _ P).
  assert (S : ok src) by (destruct rn as [|[|rn]]; auto).
  unfold mdd_substitute. set (e := map _ _).
  assert (L : length e = 3 * n) by (unfold e; rewrite map_length, seq_length, join_length; lia).
  assert (JN : forall k, nth (3 * k) (join a i p) 0 = nth k a 0 /\
     nth (3 * k + 1) (join a i p) 0 = nth k i 0 /\ nth (3 * k + 2) (join a i p) 0 = nth k p 0)
    by (intro k; apply nth_join; lia).
  assert (EN : forall x, x < 3 * n -> nth x e 0 = nth (lookup (map (fun k => 3 * k + ro) l) (map (fun k => 3 * k + rn) l) x) (join a i p) 0).
  { intros x X. unfold e. rewrite join_length by lia. set (g := fun x => _).
    rewrite nth_indep with (d' := g 0) by (rewrite map_length, seq_length; lia).
    rewrite map_nth with (f := g), seq_nth by lia. auto. }
  assert (E1 : forall r' k, r' < 3 -> r' <> ro -> k < n -> nth (3 * k + r') e 0 = nth (3 * k + r') (join a i p) 0).
  { intros r' k R D K. rewrite EN by lia.
    rewrite (lookup_out (fun k => 3 * k + ro) (fun k => 3 * k + rn)); auto. intro C; apply in_map_iff in C as (k' & C & _). lia. }
  assert (SN : forall k, k < n -> nth (3 * k + rn) (join a i p) 0 = nth k src 0).
  { intros k K. destruct (JN k) as (J0 & J1 & J2).
    unfold src; destruct rn as [|[|[|rn]]]; try lia; rewrite ?Nat.add_0_r; auto. }
  assert (E2 : forall k x, k < n -> nth (3 * k + ro) (join a i p) 0 = nth k x 0 ->
     nth (3 * k + ro) e 0 = nth k (over l src x) 0).
  { intros k x K X. rewrite EN by lia. destruct (in_dec Nat.eq_dec k l) as [i0|i0].
    - rewrite (lookup_in (fun k => 3 * k + ro) (fun k => 3 * k + rn) l k) by (auto; intros; lia).
      rewrite over_in by auto. apply SN; auto.
    - rewrite (lookup_out (fun k => 3 * k + ro) (fun k => 3 * k + rn)).
      + rewrite over_out; auto.
      + intro C; apply in_map_iff in C as (k' & C & C'). apply i0. replace k with k' by lia; auto. }
  destruct ro as [|[|[|ro]]]; [| | |lia]; f_equal; apply join_ext; auto using over_ok; intros k K;
    destruct (JN k) as (J0 & J1 & J2).
  - specialize (E2 k a K). rewrite Nat.add_0_r in E2. rewrite E2, (E1 1), (E1 2) by (auto; lia). auto.
  - specialize (E1 0 k) as E0. rewrite Nat.add_0_r in E0. rewrite E0, (E2 k i), (E1 2) by (auto; lia). auto.
  - specialize (E1 0 k) as E0. rewrite Nat.add_0_r in E0. rewrite E0, (E1 1), (E2 k p) by (auto; lia). auto.
Qed.

Lemma sub_pre_img : forall f l a i p, wf_ids l -> ok a -> ok i -> ok p ->
  mdd_substitute f (map pre_id l) (map img_id l) (join a i p) = f (join a i (over l i p)).
Proof. intros; apply (substitute_copy f 2 1); auto; lia. Qed.
Lemma sub_img_pre : forall f l a i p, wf_ids l -> ok a -> ok i -> ok p ->
  mdd_substitute f (map img_id l) (map pre_id l) (join a i p) = f (join a (over l p i) p).
Proof. intros; apply (substitute_copy f 1 2); auto; lia. Qed.
Lemma sub_img_aux : forall f l a i p, wf_ids l -> ok a -> ok i -> ok p ->
  mdd_substitute f (map img_id l) (map aux_id l) (join a i p) = f (join a (over l a i) p).
Proof. intros; rewrite aux_map; apply (substitute_copy f 1 0); auto; lia. Qed.
Lemma sub_pre_aux : forall f l a i p, wf_ids l -> ok a -> ok i -> ok p ->
  mdd_substitute f (map pre_id l) (map aux_id l) (join a i p) = f (join a i (over l a p)).
Proof. intros; rewrite aux_map; apply (substitute_copy f 2 0); auto; lia. Qed.
Lemma sub_aux_pre : forall f l a i p, wf_ids l -> ok a -> ok i -> ok p ->
  mdd_substitute f (map aux_id l) (map pre_id l) (join a i p) = f (join (over l p a) i p).
Proof. intros; rewrite aux_map; apply (substitute_copy f 0 2); auto; lia. Qed.

End P.
