(** The stacks of the search: what pruning the upper levels keeps. *)
From Coq Require Import List Arith Lia Bool.
From Verif Require Import FinLib UniModel UniSpec UniProofs GenModel GenSpec GenProofs GenProofs3.
Import ListNotations.

Definition sub (s s' : list bool) : Prop := forall x, mem s x -> mem s' x.

(** A level of the search: chosen actions and remaining candidates. *)
Definition level := (list bool * list bool)%type.

Section Chain.
Variable N : nat.
Variable kept : list bool -> Prop.

Definition lev_ok (i : level) : Prop :=
  length (fst i) = N /\ length (snd i) = N /\ forall x, mem (snd i) x -> ~ mem (fst i) x.

(** Level [k] is below level [i]. *)
Definition below (k i : level) : Prop :=
  sub (snd k) (snd i) /\ sub (fst i) (fst k) /\
  (forall x y, mem (fst k) x -> ~ mem (fst i) x -> mem (fst i) y -> y < x) /\
  ((exists z, mem (snd k) z) -> forall x, mem (fst k) x -> ~ mem (fst i) x -> mem (snd i) x).

Fixpoint chain_ok (l : list level) : Prop :=
  match l with
  | [] => True
  | k :: l' => lev_ok k /\ Forall (below k) l' /\ chain_ok l'
  end.

(** [i2] is level [i] with fewer candidates; none of a kept set is lost, and
    a level without chosen actions is unchanged. *)
Definition shr (i i2 : level) : Prop :=
  fst i2 = fst i /\ sub (snd i2) (snd i) /\
  (forall S x, kept S -> sub (fst i) S -> mem S x -> mem (snd i) x -> mem (snd i2) x) /\
  ((forall x, ~ mem (fst i) x) -> snd i2 = snd i).

Lemma shr_refl : forall i, shr i i.
Proof. intros i. split; [auto|]. split; [intros x; auto|]. split; auto. Qed.

Lemma shr_trans : forall i j k, shr i j -> shr j k -> shr i k.
Proof.
  intros i j k (A1 & A2 & A3 & A4) (B1 & B2 & B3 & B4).
  split; [congruence|]. split; [intros x H; auto|]. split.
  - intros S x HS Hs Hx Hc. apply (B3 S); auto. rewrite A1; auto. apply (A3 S); auto.
  - intros H. rewrite B4; auto. rewrite A1. auto.
Qed.

Lemma shrs_refl : forall l, Forall2 shr l l.
Proof. induction l; constructor; auto. apply shr_refl. Qed.

Lemma shrs_trans : forall l1 l2, Forall2 shr l1 l2 -> forall l3, Forall2 shr l2 l3 -> Forall2 shr l1 l3.
Proof.
  induction 1; intros l3 H'; inversion H'; subst; constructor; auto. eapply shr_trans; eauto.
Qed.

(** The node: [D'] adds [act], a candidate of the nearest level. *)
Variable act : nat.
Definition above (D' : list bool) (i : level) : Prop :=
  sub (fst i) D' /\
  forall x, mem D' x -> ~ mem (fst i) x -> mem (snd i) x /\ forall y, mem (fst i) y -> y < x.

Lemma node_above : forall D c l, chain_ok ((D, c) :: l) -> mem c act -> (forall y, mem D y -> y < act) ->
  Forall (above (upd D act true)) ((D, c) :: l).
Proof.
  intros D c l ((L1 & L2 & Dj) & Hb & _) Ha Hlt. cbn [fst snd] in *.
  assert (Hact : act < length D) by (apply mem_lt in Ha; lia).
  constructor.
  - split; [intros x Hx; apply mem_set; auto|]. cbn [fst snd]. intros x Hx Hn. apply mem_set in Hx.
    destruct Hx as [|[-> _]]; [tauto|]. auto.
  - revert Hb. apply Forall_impl. intros i (B1 & B2 & B3 & B4). cbn [fst snd] in *. split.
    + intros x Hx. apply mem_set. left. auto.
    + intros x Hx Hn. apply mem_set in Hx. destruct Hx as [Hx|[-> _]].
      * split; [apply B4; auto; exists act; auto|]. intros y Hy. apply (B3 x y); auto.
      * split; [apply B1; auto|]. intros y Hy. apply Hlt. apply B2. auto.
Qed.

(** A new level below. *)
Lemma chain_push : forall D c l cand, chain_ok ((D, c) :: l) -> mem c act ->
  (forall y, mem D y -> y < act) -> length cand = N ->
  (forall x, mem cand x -> mem c x /\ x <> act) ->
  chain_ok ((upd D act true, cand) :: (D, c) :: l).
Proof.
  intros D c l cand HC Ha Hlt Lc Hc. pose proof (node_above D c l HC Ha Hlt) as HA.
  pose proof HC as ((L1 & L2 & Dj) & Hb & HC'). cbn [fst snd] in *.
  split; [|split; [|exact HC]].
  - split; [cbn [fst]; rewrite upd_length; auto|]. split; [auto|]. cbn [fst snd]. intros x Hx Hd.
    apply Hc in Hx. apply mem_set in Hd. destruct Hd as [Hd|[-> _]]; [|tauto]. apply (Dj x); tauto.
  - assert (Sub : Forall (fun i : level => sub c (snd i)) ((D, c) :: l)).
    { constructor; [intros x; auto|]. revert Hb. apply Forall_impl. intros i (B & _). exact B. }
    rewrite Forall_forall in *. intros i Hi. destruct (HA i Hi) as [A1 A2]. specialize (Sub i Hi).
    split; [intros x Hx; apply Sub; apply Hc; auto|]. split; [exact A1|]. split.
    + intros x y Hx Hn Hy. destruct (A2 x Hx Hn) as [_ H]. auto.
    + intros _ x Hx Hn. destruct (A2 x Hx Hn) as [H _]. auto.
Qed.

(** Dropping a candidate of the nearest level. *)
Lemma chain_drop : forall D c c' l, chain_ok ((D, c) :: l) -> length c' = N -> sub c' c ->
  chain_ok ((D, c') :: l).
Proof.
  intros D c c' l ((L1 & L2 & Dj) & Hb & HC) L Hs. cbn [fst snd] in *.
  split; [split; [auto|]; split; [auto|]; cbn [fst snd]; intros x Hx; apply Dj; auto|].
  split; [|auto]. revert Hb. apply Forall_impl. intros i (B1 & B2 & B3 & B4). cbn [fst snd] in *.
  split; [intros x Hx; apply B1; auto|]. split; [auto|]. split; [auto|].
  intros (z & Hz). apply B4. exists z. auto.
Qed.

Section Prune.
Variable D' : list bool.
Variables (ids : list nat) (m0 m1 : nat).
Hypothesis Hids : forall i, In i ids -> mem D' i.
Hypothesis I0 : In m0 ids.
Hypothesis I1 : In m1 ids.
Hypothesis H01 : m0 < m1.
Hypothesis Htop : forall x, In x ids -> x = m1 \/ x <= m0.
Hypothesis Hkept : forall S, kept S -> ~ (forall y, In y ids -> mem S y).

Definition pl (i : level) : level := (fst i, prune_level m0 m1 (snd i)).

Lemma pl_cases : forall i,
  (~ mem (snd i) m1 /\ forall x, ~ mem (snd (pl i)) x) \/
  (mem (snd i) m1 /\ ~ mem (snd i) m0 /\ forall x, mem (snd (pl i)) x <-> mem (snd i) x /\ x <> m1) \/
  (mem (snd i) m1 /\ mem (snd i) m0 /\ snd (pl i) = snd i).
Proof.
  intros [d c]. unfold pl, prune_level. cbn [fst snd].
  destruct (nth m1 c false) eqn:E1; cbn [negb].
  - destruct (nth m0 c false) eqn:E0; cbn [negb].
    + right. right. auto.
    + right. left. split; [auto|]. split; [unfold mem; congruence|]. intros x. apply mem_clear.
  - left. split; [unfold mem; congruence|]. intros x. apply mem_wipe.
Qed.

Lemma pl_length : forall i, length (snd (pl i)) = length (snd i).
Proof.
  intros [d c]. unfold pl, prune_level. cbn [fst snd].
  destruct (nth m1 c false); cbn [negb]; [|apply repeat_length].
  destruct (nth m0 c false); cbn [negb]; auto. apply upd_length.
Qed.

Lemma pl_sub : forall i, sub (snd (pl i)) (snd i).
Proof.
  intros i x Hx. destruct (pl_cases i) as [[_ H]|[[_ [_ H]]|[_ [_ H]]]].
  - exfalso. apply (H x Hx).
  - apply H in Hx. tauto.
  - rewrite H in Hx. auto.
Qed.

Lemma m1_in : forall i, above D' i -> ~ mem (snd i) m1 -> mem (fst i) m1.
Proof.
  intros i [_ A] H. destruct (mem_dec (fst i) m1) as [|Hn]; auto. exfalso.
  destruct (A m1 (Hids _ I1) Hn). tauto.
Qed.

Lemma m0_in : forall i, above D' i -> ~ mem (snd i) m0 -> mem (fst i) m0.
Proof.
  intros i [_ A] H. destruct (mem_dec (fst i) m0) as [|Hn]; auto. exfalso.
  destruct (A m0 (Hids _ I0) Hn). tauto.
Qed.

Lemma pl_shr : forall i, lev_ok i -> above D' i -> shr i (pl i).
Proof.
  intros i (L1 & L2 & Dj) HA. split; [reflexivity|]. split; [apply pl_sub|].
  destruct (pl_cases i) as [[H1 H2]|[(H1 & H2 & H3)|(H1 & H2 & H3)]].
  - pose proof (m1_in i HA H1) as D1. destruct HA as [_ A]. split.
    + intros S x HS Hs Hx Hc. exfalso. apply (Hkept S HS). intros y Hy. apply Hs.
      destruct (mem_dec (fst i) y) as [|Hn]; auto. exfalso.
      destruct (A y (Hids _ Hy) Hn) as [_ Hlt]. specialize (Hlt m1 D1). destruct (Htop y Hy); lia.
    + intros He. exfalso. apply (He m1 D1).
  - pose proof (m0_in i HA H2) as D0. destruct HA as [_ A]. split.
    + intros S x HS Hs Hx Hc. apply H3. split; auto. intros ->.
      apply (Hkept S HS). intros y Hy. destruct (Htop y Hy) as [->|Hle]; auto.
      apply Hs. destruct (mem_dec (fst i) y) as [|Hn]; auto. exfalso.
      destruct (A y (Hids _ Hy) Hn) as [_ Hlt]. specialize (Hlt m0 D0). lia.
    + intros He. exfalso. apply (He m0 D0).
  - rewrite H3. split; auto.
Qed.

Lemma pl_below : forall k i, lev_ok k -> lev_ok i -> above D' k -> above D' i -> below k i ->
  below (pl k) (pl i).
Proof.
  intros k i (Lk1 & Lk2 & Dk) (Li1 & Li2 & Di) Ak Ai (B1 & B2 & B3 & B4).
  assert (W : mem (fst k) m1 -> forall x, ~ mem (snd (pl k)) x).
  { intros H. destruct (pl_cases k) as [[_ H2]|[(H1 & _)|(H1 & _)]]; auto; exfalso; apply (Dk m1 H1 H). }
  split; [|split; [exact B2|split; [exact B3|]]].
  - intros x Hx. pose proof (pl_sub k x Hx) as Hx'.
    destruct (pl_cases i) as [[H1 H2]|[(H1 & H2 & H3)|(H1 & H2 & H3)]].
    + exfalso. apply (W (B2 _ (m1_in i Ai H1)) x Hx).
    + apply H3. split; [auto|]. intros ->.
      destruct (pl_cases k) as [[_ K]|[(_ & _ & K)|(_ & K & _)]].
      * apply (K _ Hx).
      * apply K in Hx. tauto.
      * apply H2. auto.
    + rewrite H3. auto.
  - intros (z & Hz) x Hx Hn. assert (Hi : mem (snd i) x).
    { apply B4; auto. exists z. apply pl_sub. auto. }
    destruct (pl_cases i) as [[H1 H2]|[(H1 & H2 & H3)|(H1 & H2 & H3)]].
    + exfalso. apply (W (B2 _ (m1_in i Ai H1)) z Hz).
    + apply H3. split; auto. intros ->. apply (W Hx z Hz).
    + rewrite H3. auto.
Qed.

Lemma pl_chain : forall l, chain_ok l -> Forall (above D') l ->
  Forall2 shr l (map pl l) /\ chain_ok (map pl l).
Proof.
  induction l as [|k l IH]; intros HC HA; [split; constructor|].
  destruct HC as (Hk & Hb & HC). inversion HA as [|? ? Ak Al]; subst.
  destruct (IH HC Al) as [S1 S2]. split; [constructor; auto; apply pl_shr; auto|].
  cbn [map chain_ok]. split; [|split; auto].
  - destruct Hk as (L1 & L2 & Dj). split; [auto|]. split; [rewrite pl_length; auto|].
    intros x Hx. apply Dj. apply pl_sub. auto.
  - apply Forall_forall. intros i Hi. apply in_map_iff in Hi. destruct Hi as (i' & <- & Hi).
    rewrite Forall_forall in Hb, Al.
    apply pl_below; auto. clear - HC Hi. induction l as [|j l IH]; [easy|].
    destruct HC as (H1 & _ & H2). destruct Hi as [->|Hi]; auto.
Qed.
End Prune.

Lemma prune_spec : forall D c l ids, chain_ok ((D, c) :: l) -> mem c act ->
  (forall y, mem D y -> y < act) ->
  (forall i, In i ids -> mem (upd D act true) i) -> two ids -> ~ mem (upd D act true) 0 ->
  (forall S, kept S -> ~ (forall y, In y ids -> mem S y)) ->
  exists l2, prune (id_mask N ids) (map snd ((D, c) :: l)) = Some (map snd l2) /\
    Forall2 shr ((D, c) :: l) l2 /\ chain_ok l2.
Proof.
  intros D c l ids HC Ha Hlt Hids Ht H0 Hk.
  pose proof (node_above D c l HC Ha Hlt) as HA.
  assert (HN : forall i, In i ids -> i < N).
  { intros i Hi. apply Hids in Hi. apply mem_lt in Hi. rewrite upd_length in Hi.
    destruct HC as ((L1 & _) & _). cbn [fst] in L1. lia. }
  destruct (last_two_spec N ids HN Ht) as (m0 & m1 & E & H01 & I0 & I1 & Htop).
  unfold prune. rewrite E. destruct (Nat.eqb_spec m0 0) as [->|Hm].
  { exfalso. apply H0. apply Hids. auto. }
  exists (map (pl m0 m1) ((D, c) :: l)). split.
  - f_equal. rewrite !map_map. reflexivity.
  - apply (pl_chain (upd D act true) ids m0 m1); auto.
Qed.
End Chain.
