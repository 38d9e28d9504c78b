(** Representatives of actions under link symmetries: proofs. *)
From Coq Require Import List Arith Bool Lia Permutation FinFun.
From Verif Require Import FinLib Radix ActModel ActSpec ActProofs.
Import ListNotations.

(** ** Lexicographic order *)
Lemma lex_lt_index : forall u v D, Forall2 lt u D -> Forall2 lt v D ->
  lex_lt u v = (index_of_state u D <? index_of_state v D).
Proof.
  induction u as [|x u IH]; intros v D Hu Hv.
  - inversion Hu; subst. inversion Hv; subst. reflexivity.
  - inversion Hu as [|x' d u' D' Hx Hu']; subst. inversion Hv as [|y d' v' D2 Hy Hv']; subst.
    cbn [lex_lt index_of_state]. rewrite (IH v' D' Hu' Hv').
    pose proof (index_lt _ _ Hu'). pose proof (index_lt _ _ Hv').
    destruct (Nat.ltb_spec x y) as [L|L]; cbn [orb].
    + symmetry. apply Nat.ltb_lt. nia.
    + destruct (Nat.eqb_spec x y) as [->|N]; cbn [andb].
      * destruct (Nat.ltb_spec (index_of_state u D') (index_of_state v' D')) as [M|M]; symmetry.
        -- apply Nat.ltb_lt. lia.
        -- apply Nat.ltb_ge. lia.
      * symmetry. apply Nat.ltb_ge. nia.
Qed.

Lemma lex_lt_nth : forall u v, length u = length v ->
  lex_lt u v = true <->
  exists p, p < length v /\ (forall q, q < p -> nth q u 0 = nth q v 0) /\ nth p u 0 < nth p v 0.
Proof.
  induction u as [|x u IH]; intros [|y v] HL; cbn in HL; try discriminate.
  - cbn. split; [discriminate|]. intros (p & H & _). lia.
  - cbn [lex_lt length]. rewrite orb_true_iff, andb_true_iff, Nat.ltb_lt, Nat.eqb_eq. split.
    + intros [H|[-> H]].
      * exists 0. split; [lia|]. split; [lia|exact H].
      * apply IH in H; [|lia]. destruct H as (p & H1 & H2 & H3). exists (S p). split; [lia|]. split; auto.
        intros [|q] Hq; auto. apply H2. lia.
    + intros (p & H1 & H2 & H3). destruct p as [|p].
      * left. exact H3.
      * right. split; [apply (H2 0); lia|]. apply IH; [lia|]. exists p. split; [lia|]. split; auto.
        intros q Hq. apply (H2 (S q)). lia.
Qed.

Lemma lex_trichotomy : forall u v, lex_lt u v = false -> lex_lt v u = false -> u = v.
Proof.
  induction u as [|x u IH]; intros [|y v] H1 H2; cbn [lex_lt] in *; try discriminate; auto.
  apply orb_false_iff in H1, H2. destruct H1 as [A1 A2], H2 as [B1 B2].
  apply Nat.ltb_ge in A1, B1. assert (x = y) by lia. subst.
  rewrite Nat.eqb_refl in *. cbn in *. f_equal. auto.
Qed.

Lemma lex_trans : forall u v w, lex_lt u v = true -> lex_lt v w = true -> lex_lt u w = true.
Proof.
  induction u as [|x u IH]; intros [|y v] [|z w] H1 H2; cbn [lex_lt] in *; try discriminate; auto.
  apply orb_true_iff in H1, H2. apply orb_true_iff.
  rewrite andb_true_iff, Nat.ltb_lt, Nat.eqb_eq in H1, H2 |- *.
  destruct H1 as [H1|[-> H1]], H2 as [H2|[-> H2]]; auto; [left; lia|]. right. eauto.
Qed.

Lemma lex_irrefl : forall u, lex_lt u u = false.
Proof. induction u; cbn [lex_lt]; auto. rewrite IHu, Nat.ltb_irrefl, andb_false_r. reflexivity. Qed.

Definition lex_le (u v : list nat) : Prop := lex_lt v u = false.

Lemma lex_le_trans : forall u v w, lex_le u v -> lex_le v w -> lex_le u w.
Proof.
  unfold lex_le. intros u v w H1 H2. destruct (lex_lt w u) eqn:E; auto.
  destruct (lex_lt u v) eqn:F.
  - pose proof (lex_trans _ _ _ E F). congruence.
  - pose proof (lex_trichotomy _ _ F H1). subst. congruence.
Qed.

Inductive ordered : list (list nat) -> Prop :=
| ord_nil : ordered []
| ord_cons : forall x l, (forall y, In y l -> lex_le x y) -> ordered l -> ordered (x :: l).

Lemma ordered_adjacent : forall l, (forall i, S i < length l -> lex_le (nth i l []) (nth (S i) l [])) ->
  ordered l.
Proof.
  induction l as [|x l IH]; intros H; constructor.
  - clear IH. revert x H. induction l as [|y l IH]; intros x H z Hz; [destruct Hz|].
    assert (Hxy : lex_le x y) by (apply (H 0); cbn; lia).
    destruct Hz as [->|Hz]; auto. apply lex_le_trans with y; auto.
    apply IH; auto. intros i Hi. apply (H (S i)). cbn in *. lia.
  - apply IH. intros i Hi. apply (H (S i)). cbn. lia.
Qed.

Lemma ordered_perm_eq : forall l1 l2, ordered l1 -> ordered l2 -> Permutation l1 l2 -> l1 = l2.
Proof.
  induction l1 as [|x l1 IH]; intros l2 O1 O2 P.
  - apply Permutation_nil in P. auto.
  - destruct l2 as [|y l2]; [apply Permutation_sym, Permutation_nil in P; discriminate|].
    inversion O1 as [|? ? A1 A2]; subst. inversion O2 as [|? ? B1 B2]; subst.
    assert (E : x = y).
    { assert (I1 : In x (y :: l2)) by (apply (Permutation_in _ P); left; auto).
      assert (I2 : In y (x :: l1)) by (apply (Permutation_in _ (Permutation_sym P)); left; auto).
      destruct I1 as [I1|I1]; auto. destruct I2 as [I2|I2]; auto.
      apply lex_trichotomy; [apply (B1 _ I1)|apply (A1 _ I2)]. }
    subst. f_equal. apply IH; auto. apply Permutation_cons_inv in P. exact P.
Qed.

(** ** Exchanging cells *)
Definition tr (p q k : nat) : nat := if k =? p then q else if k =? q then p else k.

Lemma tr_l : forall p q, tr p q p = q.
Proof. intros. unfold tr. rewrite Nat.eqb_refl. reflexivity. Qed.
Lemma tr_r : forall p q, tr p q q = p.
Proof. intros. unfold tr. destruct (Nat.eqb_spec q p); auto. rewrite Nat.eqb_refl. reflexivity. Qed.
Lemma tr_o : forall p q k, k <> p -> k <> q -> tr p q k = k.
Proof.
  intros. unfold tr. destruct (Nat.eqb_spec k p); [contradiction|].
  destruct (Nat.eqb_spec k q); [contradiction|]. reflexivity.
Qed.

Lemma swap_cells_length : forall p q v, length (swap_cells p q v) = length v.
Proof. intros. unfold swap_cells. rewrite map_length, seq_length. reflexivity. Qed.

Lemma swap_cells_nth : forall p q v k, k < length v ->
  nth k (swap_cells p q v) 0 = nth (tr p q k) v 0.
Proof.
  intros p q v k H. unfold swap_cells.
  rewrite (nth_indep _ 0 ((fun k => nth (if k =? p then q else if k =? q then p else k) v 0) 0))
    by (rewrite map_length, seq_length; exact H).
  rewrite (map_nth (fun k => nth (if k =? p then q else if k =? q then p else k) v 0)).
  rewrite seq_nth by exact H. reflexivity.
Qed.

Lemma last_index_absent : forall l i x f, ~ In x l -> last_index i l x f = f.
Proof.
  induction l as [|y l IH]; intros i x f H; cbn; auto.
  destruct (Nat.eqb_spec y x) as [->|N]; [exfalso; apply H; left; auto|].
  apply IH. intros C. apply H. right. exact C.
Qed.

Lemma last_index_nth : forall l i w f, NoDup l -> w < length l ->
  last_index i l (nth w l 0) f = i + w.
Proof.
  induction l as [|y l IH]; intros i w f N H; cbn in H; [lia|].
  inversion N as [|? ? N1 N2]; subst. destruct w as [|w]; cbn [last_index nth].
  - rewrite Nat.eqb_refl, last_index_absent by exact N1. lia.
  - rewrite IH by (auto; lia). lia.
Qed.

Lemma widx_place : forall pc i, i < nr pc -> wck pc i = true -> widx pc i = place pc i.
Proof.
  intros pc i H Hw. destruct (nth_place pc i H Hw) as [H1 H2]. unfold widx.
  rewrite <- H2 at 1. rewrite last_index_nth; auto. apply wmap_NoDup.
Qed.

(** The cells of a value list that describe one access. *)
Lemma swap_vals_length : forall pc p q v, length (swap_vals pc p q v) = length v.
Proof.
  intros. unfold swap_vals. destruct (_ || _); rewrite ?swap_cells_length; reflexivity.
Qed.

Lemma place_inj : forall pc i j, i < nr pc -> j < nr pc -> wck pc i = true -> wck pc j = true ->
  place pc i = place pc j -> i = j.
Proof.
  intros pc i j Hi Hj Wi Wj E. destruct (nth_place pc i Hi Wi) as [_ A], (nth_place pc j Hj Wj) as [_ B].
  congruence.
Qed.

Lemma swap_vals_views : forall pc p q v, length v = nr pc + nw pc ->
  p < nr pc -> q < nr pc -> acc pc p = acc pc q ->
  (forall i, i < nr pc -> tested (swap_vals pc p q v) i = tested v (tr p q i)) /\
  (forall i, i < nr pc -> wck pc i = true ->
     assigned pc (swap_vals pc p q v) i = assigned pc v (tr p q i)).
Proof.
  intros pc p q v HL Hp Hq E. unfold swap_vals, tested, assigned. fold (nr pc).
  assert (HT : forall i, i < nr pc -> tr p q i < nr pc).
  { intros i Hi. unfold tr. destruct (i =? p); auto. destruct (i =? q); auto. }
  destruct (wck pc p) eqn:Wp.
  - assert (Wq : wck pc q = true) by (unfold wck in *; rewrite <- E; exact Wp).
    unfold wck in Wp, Wq. rewrite Wp. cbn [orb].
    rewrite !widx_place by auto. destruct (nth_place pc p Hp Wp) as [P1 _], (nth_place pc q Hq Wq) as [Q1 _].
    split.
    + intros i Hi. rewrite swap_cells_nth by (rewrite swap_cells_length; lia).
      rewrite (tr_o (nr pc + place pc p)) by lia. apply swap_cells_nth. lia.
    + intros i Hi Wi. destruct (nth_place pc i Hi Wi) as [I1 _].
      rewrite swap_cells_nth by (rewrite swap_cells_length; lia).
      assert (EE : tr (nr pc + place pc p) (nr pc + place pc q) (nr pc + place pc i)
                   = nr pc + place pc (tr p q i)).
      { destruct (Nat.eq_dec i p) as [->|N1]; [rewrite !tr_l; auto|].
        destruct (Nat.eq_dec i q) as [->|N2]; [rewrite !tr_r; auto|].
        rewrite !tr_o; auto; intros C; [apply N1|apply N2]; apply (place_inj pc); auto; lia. }
      rewrite EE. rewrite swap_cells_nth.
      * rewrite tr_o by lia. reflexivity.
      * rewrite HL. assert (Wt : wck pc (tr p q i) = true).
        { unfold tr. destruct (i =? p); auto. destruct (i =? q); auto. }
        destruct (nth_place pc _ (HT i Hi) Wt). lia.
  - assert (Wq : wck pc q = false) by (unfold wck in *; rewrite <- E; exact Wp).
    unfold wck in Wp, Wq. rewrite Wp, Wq. cbn [orb]. split.
    + intros i Hi. apply swap_cells_nth. lia.
    + intros i Hi Wi. destruct (nth_place pc i Hi Wi) as [I1 _].
      rewrite swap_cells_nth by lia. rewrite tr_o by lia.
      rewrite tr_o; auto; intros ->; unfold wck in Wi; congruence.
Qed.

(** Two value lists that agree on every access are equal. *)
Lemma views_eq : forall pc u v, length u = nr pc + nw pc -> length v = nr pc + nw pc ->
  (forall i, i < nr pc -> tested u i = tested v i) ->
  (forall i, i < nr pc -> wck pc i = true -> assigned pc u i = assigned pc v i) -> u = v.
Proof.
  intros pc u v Hu Hv HT HA. apply list_ext_nth with (d := 0); [congruence|].
  intros i Hi. destruct (Nat.lt_ge_cases i (nr pc)) as [L|L]; [apply HT; exact L|].
  destruct (wmap_nth pc (i - nr pc)) as (P1 & P2 & P3); [lia|].
  specialize (HA _ P1 P2). unfold assigned in HA. fold (nr pc) in HA. rewrite P3 in HA.
  replace (nr pc + (i - nr pc)) with i in HA by lia. exact HA.
Qed.

(** [b] is [a] read through a renaming [s] of the accesses. *)
Definition through (pc : pcsymm) (s : nat -> nat) (a b : list nat) : Prop :=
  (forall i, i < nr pc -> tested b i = tested a (s i)) /\
  (forall i, i < nr pc -> wck pc i = true -> assigned pc b i = assigned pc a (s i)).

Definition keeps (pc : pcsymm) (s : nat -> nat) : Prop :=
  forall i, i < nr pc -> s i < nr pc /\ acc pc (s i) = acc pc i.

Lemma through_comp : forall pc s t a b c, keeps pc t ->
  through pc s a b -> through pc t b c -> through pc (fun i => s (t i)) a c.
Proof.
  intros pc s t a b c K [A1 A2] [B1 B2]. split.
  - intros i Hi. destruct (K i Hi). rewrite B1, A1 by auto. reflexivity.
  - intros i Hi Wi. destruct (K i Hi) as [K1 K2]. rewrite B2, A2; auto.
    unfold wck in *. rewrite K2. exact Wi.
Qed.

Lemma through_valid : forall pc s a b, keeps pc s -> length b = nr pc + nw pc ->
  valid pc a -> through pc s a b -> valid pc b.
Proof.
  intros pc s a b K HL V [T1 T2]. apply valid_spec in V. apply valid_spec.
  destruct V as (V1 & V2 & V3). split; [rewrite HL; f_equal; symmetry; apply place_all|]. split.
  - intros i Hi. destruct (K i Hi) as [K1 K2]. rewrite T1 by exact Hi.
    fold (acc pc i). rewrite <- K2. apply V2. exact K1.
  - intros i Hi Wi. destruct (K i Hi) as [K1 K2]. rewrite T2; [|exact Hi|apply writable_ck; exact Wi].
    fold (acc pc i). rewrite <- K2. apply V3; [exact K1|]. unfold acc in K2. rewrite K2. exact Wi.
Qed.

(** ** Exchanging two adjacent links *)
Section Links.
Variable pc : pcsymm.
Hypothesis LO : laid_out pc.

Lemma NoDup_app_inv : forall A (l m : list A), NoDup (l ++ m) ->
  NoDup l /\ NoDup m /\ forall x, In x l -> ~ In x m.
Proof.
  clear. induction l as [|x l IH]; intros m N; cbn in N.
  - split; [constructor|]. split; auto.
  - inversion N as [|? ? N1 N2]; subst. destruct (IH m N2) as (A1 & A2 & A3). split; [|split; auto].
    + constructor; auto. intros C. apply N1. apply in_or_app. auto.
    + intros y [->|Hy]; auto. intros C. apply N1. apply in_or_app. auto.
Qed.

Lemma concat_NoDup_disjoint : forall A (ll : list (list A)) i j x, NoDup (concat ll) ->
  i < length ll -> j < length ll -> In x (nth i ll []) -> In x (nth j ll []) -> i = j.
Proof.
  clear. induction ll as [|l ll IH]; intros i j x N Hi Hj Xi Xj; cbn in Hi, Hj; [lia|].
  cbn [concat] in N. apply NoDup_app_inv in N. destruct N as (N1 & N2 & N3).
  destruct i as [|i], j as [|j]; auto; cbn in Xi, Xj.
  - exfalso. apply (N3 x Xi). apply in_concat. exists (nth j ll []). split; auto. apply nth_In. lia.
  - exfalso. apply (N3 x Xj). apply in_concat. exists (nth i ll []). split; auto. apply nth_In. lia.
  - f_equal. apply (IH i j x); auto; lia.
Qed.

Lemma concat_NoDup_each : forall A (ll : list (list A)) l, NoDup (concat ll) -> In l ll -> NoDup l.
Proof.
  clear. induction ll as [|m ll IH]; intros l N H; [destruct H|]. cbn [concat] in N.
  apply NoDup_app_inv in N. destruct N as (N1 & N2 & _). destruct H as [->|H]; auto.
Qed.

(** Positions determine symmetry, row and link. *)
Lemma pos_in : forall k r l, In k (symms pc) -> r < length (rows k) -> l < nlinks k ->
  In (nth r (rows k) []) (rows k) /\ In (pos k r l) (nth r (rows k) []).
Proof.
  intros k r l Hk Hr Hl. assert (In (nth r (rows k) []) (rows k)) by (apply nth_In; exact Hr).
  split; auto. apply nth_In. rewrite (lo_length _ LO k); auto.
Qed.

Lemma pos_lt : forall k r l, In k (symms pc) -> r < length (rows k) -> l < nlinks k ->
  pos k r l < nr pc.
Proof.
  intros k r l Hk Hr Hl. destruct (pos_in k r l Hk Hr Hl). eapply (lo_range _ LO); eauto.
Qed.

Lemma pos_same : forall k r l l', In k (symms pc) -> r < length (rows k) -> l < nlinks k ->
  l' < nlinks k -> acc pc (pos k r l) = acc pc (pos k r l').
Proof.
  intros k r l l' Hk Hr Hl Hl'. destruct (pos_in k r l Hk Hr Hl), (pos_in k r l' Hk Hr Hl').
  eapply (lo_same _ LO); eauto.
Qed.

Lemma rows_NoDup : forall k, In k (symms pc) -> NoDup (concat (rows k)).
Proof.
  intros k Hk. pose proof (lo_disjoint _ LO) as N.
  revert N Hk. generalize (symms pc) as ks. clear. induction ks as [|k' ks IH]; intros N H; [destruct H|].
  cbn [map concat] in N. rewrite concat_app in N. apply NoDup_app_inv in N.
  destruct N as (N1 & N2 & _). destruct H as [->|H]; auto.
Qed.

Lemma pos_inj : forall k r l r' l', In k (symms pc) -> r < length (rows k) -> r' < length (rows k) ->
  l < nlinks k -> l' < nlinks k -> pos k r l = pos k r' l' -> r = r' /\ l = l'.
Proof.
  intros k r l r' l' Hk Hr Hr' Hl Hl' E. pose proof (rows_NoDup k Hk) as N.
  destruct (pos_in k r l Hk Hr Hl) as [A1 A2], (pos_in k r' l' Hk Hr' Hl') as [B1 B2].
  assert (r = r').
  { eapply concat_NoDup_disjoint; eauto. rewrite E. exact B2. }
  subst r'. split; auto. pose proof (concat_NoDup_each _ _ _ N A1) as N1.
  rewrite NoDup_nth with (d := 0) in N1. apply N1; rewrite ?(lo_length _ LO k) by auto; auto.
Qed.

Lemma symm_unique : forall ks k k' x, NoDup (concat (concat (map rows ks))) ->
  In k ks -> In k' ks -> In x (concat (rows k)) -> In x (concat (rows k')) -> k = k'.
Proof.
  clear. induction ks as [|k0 ks IH]; intros k k' x N H H' X X'; [destruct H|].
  cbn [map concat] in N. rewrite concat_app in N. apply NoDup_app_inv in N.
  destruct N as (N1 & N2 & N3).
  assert (IN : forall k, In k ks -> In x (concat (rows k)) -> In x (concat (concat (map rows ks)))).
  { clear. intros k H X. apply in_concat in X. destruct X as (row & R1 & R2).
    apply in_concat. exists row. split; auto. apply in_concat. exists (rows k). split; auto.
    apply in_map. exact H. }
  destruct H as [->|H], H' as [->|H']; auto.
  - exfalso. apply (N3 x X). eauto.
  - exfalso. apply (N3 x X'). eauto.
  - eapply IH; eauto.
Qed.

Lemma symm_disjoint : forall k k' r l r' l', In k (symms pc) -> In k' (symms pc) ->
  r < length (rows k) -> r' < length (rows k') -> l < nlinks k -> l' < nlinks k' ->
  pos k r l = pos k' r' l' -> k = k'.
Proof.
  intros k k' r l r' l' Hk Hk' Hr Hr' Hl Hl' E.
  destruct (pos_in k r l Hk Hr Hl) as [A1 A2], (pos_in k' r' l' Hk' Hr' Hl') as [B1 B2].
  apply (symm_unique (symms pc) k k' (pos k r l)); auto.
  - apply (lo_disjoint _ LO).
  - apply in_concat. eauto.
  - apply in_concat. exists (nth r' (rows k') []). split; auto. rewrite E. exact B2.
Qed.

Lemma fold_swap_rows : forall l rs v, length v = nr pc + nw pc ->
  NoDup (concat rs) ->
  (forall row, In row rs -> S l < length row /\ (forall p, In p row -> p < nr pc) /\
     (forall p q, In p row -> In q row -> acc pc p = acc pc q)) ->
  let v' := fold_left (fun v row => swap_vals pc (nth l row 0) (nth (S l) row 0) v) rs v in
  length v' = length v /\
  exists t, keeps pc t /\ through pc t v v' /\
    (forall row, In row rs -> t (nth l row 0) = nth (S l) row 0 /\ t (nth (S l) row 0) = nth l row 0) /\
    (forall i, (forall row, In row rs -> i <> nth l row 0 /\ i <> nth (S l) row 0) -> t i = i).
Proof.
  clear LO. intros l. induction rs as [|row rs IH]; intros v HL N HR; cbn [fold_left]; cbv zeta.
  - split; auto. exists (fun i => i). split; [|split; [|split]].
    + intros i Hi. auto.
    + split; auto.
    + intros row [].
    + auto.
  - cbn [concat] in N. apply NoDup_app_inv in N. destruct N as (N1 & N2 & N3).
    destruct (HR row (or_introl eq_refl)) as (R1 & R2 & R3).
    set (p := nth l row 0). set (q := nth (S l) row 0).
    assert (Ip : In p row) by (apply nth_In; lia). assert (Iq : In q row) by (apply nth_In; lia).
    assert (Npq : p <> q).
    { intros E. rewrite NoDup_nth with (d := 0) in N1. specialize (N1 l (S l)). unfold p, q in E. lia. }
    pose proof (swap_vals_views pc p q v HL (R2 _ Ip) (R2 _ Iq) (R3 _ _ Ip Iq)) as TV.
    destruct (IH (swap_vals pc p q v)) as (L' & t & K & T & T1 & T2).
    { rewrite swap_vals_length. exact HL. }
    { exact N2. }
    { intros row' H. apply HR. right. exact H. }
    split; [rewrite L', swap_vals_length; reflexivity|].
    assert (OUT : forall x row', In x row -> In row' rs -> x <> nth l row' 0 /\ x <> nth (S l) row' 0).
    { intros x row' Hx Hr. destruct (HR row' (or_intror Hr)) as (Q1 & _).
      split; intros ->; apply (N3 _ Hx); apply in_concat; exists row'; split; auto; apply nth_In; lia. }
    exists (fun i => tr p q (t i)). split; [|split; [|split]].
    + intros i Hi. destruct (K i Hi) as [K1 K2]. rewrite <- K2. unfold tr.
      destruct (Nat.eqb_spec (t i) p) as [->|]; [split; auto|].
      destruct (Nat.eqb_spec (t i) q) as [->|]; split; auto.
    + apply through_comp with (b := swap_vals pc p q v); auto.
    + intros row' [<-|Hr].
      * fold p q. rewrite (T2 p), (T2 q) by (intros; apply OUT; auto). rewrite tr_l, tr_r. auto.
      * destruct (T1 row' Hr) as [E1 E2]. rewrite E1, E2.
        destruct (OUT p row' Ip Hr), (OUT q row' Iq Hr). rewrite !tr_o; auto.
    + intros i Hi. destruct (Hi row (or_introl eq_refl)). rewrite T2 by (intros; apply Hi; right; auto).
      apply tr_o; auto.
Qed.

Definition links_dec : forall k k' : links, {k = k'} + {k <> k'}.
Proof. decide equality; [apply list_eq_dec, list_eq_dec, Nat.eq_dec | apply Nat.eq_dec]. Defined.

(** What exchanging links [l] and [l+1] of [k] does. *)
Lemma swap_links_views : forall k l v, In k (symms pc) -> S l < nlinks k ->
  length v = nr pc + nw pc ->
  length (swap_links pc k l v) = length v /\
  exists t, keeps pc t /\ through pc t v (swap_links pc k l v) /\ relinking pc t /\
    (forall r, r < length (rows k) -> t (pos k r l) = pos k r (S l) /\ t (pos k r (S l)) = pos k r l) /\
    (forall i, (forall r, r < length (rows k) -> i <> pos k r l /\ i <> pos k r (S l)) -> t i = i).
Proof.
  intros k l v Hk Hl HL.
  destruct (fold_swap_rows l (rows k) v HL (rows_NoDup k Hk)) as (L' & t & K & T & T1 & T2).
  { intros row Hr. split; [rewrite (lo_length _ LO k row Hk Hr); exact Hl|]. split.
    - intros p Hp. eapply (lo_range _ LO); eauto.
    - intros p q Hp Hq. eapply (lo_same _ LO); eauto. }
  split; auto. exists t.
  assert (T1' : forall r, r < length (rows k) -> t (pos k r l) = pos k r (S l) /\ t (pos k r (S l)) = pos k r l).
  { intros r Hr. apply T1. apply nth_In. exact Hr. }
  assert (T2' : forall i, (forall r, r < length (rows k) -> i <> pos k r l /\ i <> pos k r (S l)) -> t i = i).
  { intros i Hi. apply T2. intros row Hr. apply In_nth with (d := []) in Hr. destruct Hr as (r & R1 & <-).
    apply Hi. exact R1. }
  split; auto. split; auto. split; [|split; auto]. split.
  - intros i Hi. apply T2'. intros r Hr.
    split; intros ->.
    + destruct (pos_in k r l Hk Hr ltac:(lia)) as [A B]. exact (Hi _ _ Hk A B).
    + destruct (pos_in k r (S l) Hk Hr Hl) as [A B]. exact (Hi _ _ Hk A B).
  - intros k' Hk'. destruct (links_dec k k') as [<-|N].
    + exists (tr l (S l)). split; [|split].
      * intros x Hx. unfold tr. destruct (x =? l); [lia|]. destruct (x =? S l); lia.
      * intros x y Hx Hy. unfold tr.
        destruct (Nat.eqb_spec x l), (Nat.eqb_spec x (S l)), (Nat.eqb_spec y l), (Nat.eqb_spec y (S l)); lia.
      * intros r x Hr Hx. destruct (T1' r Hr) as [E1 E2].
        destruct (Nat.eq_dec x l) as [->|N1]; [rewrite tr_l; exact E1|].
        destruct (Nat.eq_dec x (S l)) as [->|N2]; [rewrite tr_r; exact E2|].
        rewrite tr_o by auto. apply T2'. intros r' Hr'.
        split; intros E; apply pos_inj in E; auto; try lia.
    + exists (fun x => x). split; [auto|]. split; [auto|]. intros r x Hr Hx. apply T2'.
      intros r' Hr'. split; intros E; apply N; symmetry.
      * apply (symm_disjoint k' k r x r' l); auto. lia.
      * apply (symm_disjoint k' k r x r' (S l)); auto.
Qed.

(** ** Link tuples *)
Definition tuple (v : list nat) (k : links) (l : nat) : list nat :=
  map (fun row => tested v (nth l row 0)) (rows k) ++
  map (fun row => if wck pc (nth l row 0) then assigned pc v (nth l row 0) else 0) (rows k).
Definition tuples (v : list nat) (k : links) : list (list nat) := map (tuple v k) (seq 0 (nlinks k)).

Lemma tuple_length : forall v k l, length (tuple v k l) = length (rows k) + length (rows k).
Proof. intros. unfold tuple. rewrite app_length, !map_length. reflexivity. Qed.

Lemma tuple_nth1 : forall v k l r, r < length (rows k) ->
  nth r (tuple v k l) 0 = tested v (pos k r l).
Proof.
  intros v k l r Hr. unfold tuple. rewrite app_nth1 by (rewrite map_length; exact Hr).
  set (f := fun row : list nat => tested v (nth l row 0)).
  rewrite (nth_indep _ 0 (f [])) by (rewrite map_length; exact Hr).
  rewrite map_nth. reflexivity.
Qed.

Lemma tuple_nth2 : forall v k l r, r < length (rows k) ->
  nth (length (rows k) + r) (tuple v k l) 0 =
  if wck pc (pos k r l) then assigned pc v (pos k r l) else 0.
Proof.
  intros v k l r Hr. unfold tuple. rewrite app_nth2 by (rewrite map_length; lia).
  rewrite map_length. replace (length (rows k) + r - length (rows k)) with r by lia.
  set (f := fun row : list nat => if wck pc (nth l row 0) then assigned pc v (nth l row 0) else 0).
  rewrite (nth_indep _ 0 (f [])) by (rewrite map_length; exact Hr).
  rewrite map_nth. reflexivity.
Qed.

(** If the tuple of link [l+1] is smaller than that of link [l], exchanging them lowers the list. *)
Lemma swap_lower : forall k l v, In k (symms pc) -> S l < nlinks k -> length v = nr pc + nw pc ->
  lex_lt (tuple v k (S l)) (tuple v k l) = true -> lex_lt (swap_links pc k l v) v = true.
Proof.
  intros k l v Hk Hl HL H. apply lex_lt_nth in H; [|rewrite !tuple_length; reflexivity].
  destruct H as (p & P1 & P2 & P3). rewrite tuple_length in P1.
  destruct (swap_links_views k l v Hk Hl HL) as (L' & t & K & [TV1 TV2] & _ & T1 & T2).
  apply lex_lt_nth; [exact L'|].
  assert (HP : forall r x, r < length (rows k) -> x < nlinks k -> pos k r x < nr pc)
    by (intros; apply pos_lt; auto).
  (* the smaller of the two positions of a row is the one on link l *)
  assert (LOW : forall r r' i, r < length (rows k) -> r' < length (rows k) ->
            i < pos k r l -> i = pos k r' l \/ i = pos k r' (S l) -> r' < r).
  { intros r r' i Hr Hr' Hi Ei. assert (pos k r' l < pos k r l).
    { destruct Ei as [->| ->]; auto. pose proof (lo_link_order _ LO k r' l Hk Hr' Hl). lia. }
    destruct (Nat.lt_trichotomy r' r) as [L|[->|L]]; auto; try lia.
    pose proof (lo_row_order _ LO k r r' l Hk L Hr' ltac:(lia)). lia. }
  assert (WS : forall r, r < length (rows k) -> wck pc (pos k r (S l)) = wck pc (pos k r l)).
  { intros r Hr. unfold wck. f_equal. apply pos_same; auto. lia. }
  destruct (Nat.lt_ge_cases p (length (rows k))) as [C|C].
  - (* the first difference is in a guard *)
    rewrite !tuple_nth1 in P3 by exact C. exists (pos k p l).
    assert (Hpl : pos k p l < nr pc) by (apply HP; auto; lia).
    split; [lia|]. split.
    + intros q Hq. change (tested (swap_links pc k l v) q = tested v q). rewrite TV1 by lia.
      assert (EX : (exists r, r < length (rows k) /\ (q = pos k r l \/ q = pos k r (S l))) \/
                   (forall r, r < length (rows k) -> q <> pos k r l /\ q <> pos k r (S l))).
      { assert (D : forall n, (exists r, r < n /\ (q = pos k r l \/ q = pos k r (S l))) \/
                   (forall r, r < n -> q <> pos k r l /\ q <> pos k r (S l))).
        { induction n as [|n [IH|IH]]; [right; lia| |].
          - left. destruct IH as (r & A & B). exists r. split; auto.
          - destruct (Nat.eq_dec q (pos k n l)); [left; exists n; auto|].
            destruct (Nat.eq_dec q (pos k n (S l))); [left; exists n; auto|].
            right. intros r Hr. destruct (Nat.eq_dec r n) as [->|]; auto. apply IH. lia. }
        apply D. }
      destruct EX as [(r & Hr & Er)|NE].
      * assert (r < p) by (apply (LOW p r q); auto).
        specialize (P2 r ltac:(assumption)). rewrite !tuple_nth1 in P2 by exact Hr.
        destruct (T1 r Hr) as [E1 E2]. destruct Er as [->| ->]; [rewrite E1|rewrite E2]; auto.
      * rewrite T2 by exact NE. reflexivity.
    + change (tested (swap_links pc k l v) (pos k p l) < tested v (pos k p l)).
      rewrite TV1 by exact Hpl. destruct (T1 p C) as [-> _]. exact P3.
  - (* the first difference is in an assignment *)
    set (r0 := p - length (rows k)). assert (Hr0 : r0 < length (rows k)) by (unfold r0; lia).
    replace p with (length (rows k) + r0) in * by (unfold r0; lia). clearbody r0. clear C.
    rewrite !tuple_nth2 in P3 by exact Hr0. rewrite WS in P3 by exact Hr0.
    destruct (wck pc (pos k r0 l)) eqn:W0; [|lia].
    assert (Hpl : pos k r0 l < nr pc) by (apply HP; auto; lia).
    destruct (nth_place pc _ Hpl W0) as [Q1 _].
    exists (nr pc + place pc (pos k r0 l)). split; [lia|].
    assert (GE : forall r, r < length (rows k) -> tested v (pos k r (S l)) = tested v (pos k r l)).
    { intros r Hr. specialize (P2 r ltac:(lia)). rewrite !tuple_nth1 in P2 by exact Hr. exact P2. }
    assert (AE : forall r, r < r0 -> wck pc (pos k r l) = true ->
              assigned pc v (pos k r (S l)) = assigned pc v (pos k r l)).
    { intros r Hr Wr. specialize (P2 (length (rows k) + r) ltac:(lia)).
      rewrite !tuple_nth2 in P2 by lia. rewrite WS, Wr in P2 by lia. exact P2. }
    assert (D : forall q n, (exists r, r < n /\ (q = pos k r l \/ q = pos k r (S l))) \/
                   (forall r, r < n -> q <> pos k r l /\ q <> pos k r (S l))).
    { intros q. induction n as [|n [IH|IH]]; [right; lia| |].
      - left. destruct IH as (r & A & B). exists r. split; auto.
      - destruct (Nat.eq_dec q (pos k n l)); [left; exists n; auto|].
        destruct (Nat.eq_dec q (pos k n (S l))); [left; exists n; auto|].
        right. intros r Hr. destruct (Nat.eq_dec r n) as [->|]; auto. apply IH. lia. }
    split.
    + intros q Hq. destruct (Nat.lt_ge_cases q (nr pc)) as [C|C].
      * change (tested (swap_links pc k l v) q = tested v q). rewrite TV1 by exact C.
        destruct (D q (length (rows k))) as [(r & Hr & Er)|NE].
        -- destruct (T1 r Hr) as [E1 E2]. specialize (GE r Hr).
           destruct Er as [->| ->]; [rewrite E1|rewrite E2]; congruence.
        -- rewrite T2 by exact NE. reflexivity.
      * destruct (wmap_nth pc (q - nr pc)) as (M1 & M2 & M3); [lia|].
        set (i := nth (q - nr pc) (wmap pc) 0) in *. clearbody i.
        assert (Ei : q = nr pc + place pc i) by lia. rewrite Ei.
        change (assigned pc (swap_links pc k l v) i = assigned pc v i).
        rewrite TV2 by auto.
        assert (Hlt : i < pos k r0 l).
        { apply (place_lt_inv pc); auto. clear - Ei Hq. lia. }
        destruct (D i (length (rows k))) as [(r & Hr & Er)|NE].
        -- assert (r < r0) by (apply (LOW r0 r i); auto).
           destruct (T1 r Hr) as [E1 E2].
           assert (Wr : wck pc (pos k r l) = true).
           { destruct Er as [E|E]; rewrite E in M2; auto. rewrite WS in M2; auto. }
           specialize (AE r ltac:(assumption) Wr).
           destruct Er as [E|E]; rewrite E; [rewrite E1|rewrite E2]; congruence.
        -- rewrite T2 by exact NE. reflexivity.
    + change (assigned pc (swap_links pc k l v) (pos k r0 l) < assigned pc v (pos k r0 l)).
      rewrite TV2 by auto. destruct (T1 r0 Hr0) as [-> _]. exact P3.
Qed.

(** ** Renamed lists have the same link tuples *)
Definition same_class (a b : list nat) : Prop :=
  (forall i, i < nr pc -> (forall k row, In k (symms pc) -> In row (rows k) -> ~ In i row) ->
     tested a i = tested b i /\ (wck pc i = true -> assigned pc a i = assigned pc b i)) /\
  (forall k, In k (symms pc) -> Permutation (tuples a k) (tuples b k)).

Lemma same_class_sym : forall a b, same_class a b -> same_class b a.
Proof.
  intros a b [H1 H2]. split.
  - intros i Hi Ho. destruct (H1 i Hi Ho). split; auto. intros W. symmetry. auto.
  - intros k Hk. apply Permutation_sym. auto.
Qed.

Lemma same_class_trans : forall a b c, same_class a b -> same_class b c -> same_class a c.
Proof.
  intros a b c [A1 A2] [B1 B2]. split.
  - intros i Hi Ho. destruct (A1 i Hi Ho) as [X1 X2], (B1 i Hi Ho) as [Y1 Y2]. split; [congruence|].
    intros W. rewrite (X2 W). exact (Y2 W).
  - intros k Hk. apply Permutation_trans with (tuples b k); auto.
Qed.

Lemma perm_seq : forall n pi, (forall l, l < n -> pi l < n) ->
  (forall l l', l < n -> l' < n -> pi l = pi l' -> l = l') -> Permutation (map pi (seq 0 n)) (seq 0 n).
Proof.
  intros n pi H1 H2. apply NoDup_Permutation_bis.
  - assert (G : forall m, m <= n -> NoDup (map pi (seq 0 m))).
    { induction m as [|m IH]; intros Hm; [constructor|].
      rewrite seq_S, map_app. cbn [map Nat.add].
      apply Permutation_NoDup with (pi m :: map pi (seq 0 m)); [apply Permutation_cons_append|].
      constructor; [|apply IH; lia]. intros C. apply in_map_iff in C. destruct C as (x & X1 & X2).
      apply in_seq in X2. apply H2 in X1; lia. }
    apply G. lia.
  - rewrite map_length, seq_length. lia.
  - intros x Hx. apply in_map_iff in Hx. destruct Hx as (y & <- & Y2). apply in_seq in Y2.
    apply in_seq. specialize (H1 y). lia.
Qed.

Lemma relinked_same_class : forall a b, relinked pc a b -> same_class a b.
Proof.
  intros a b (s & [S1 S2] & V1 & V2). split.
  - intros i Hi Ho. rewrite V1 by exact Hi. rewrite S1 by exact Ho. split; auto.
    intros W. rewrite V2; [|exact Hi|apply writable_ck; exact W]. rewrite S1 by exact Ho. reflexivity.
  - intros k Hk. destruct (S2 k Hk) as (pi & P1 & P2 & P3).
    assert (E : tuples b k = map (tuple a k) (map pi (seq 0 (nlinks k)))).
    { unfold tuples. rewrite map_map. apply map_ext_in. intros l Hl. apply in_seq in Hl.
      assert (Hl' : l < nlinks k) by lia. specialize (P1 l Hl').
      apply list_ext_nth with (d := 0); [rewrite !tuple_length; reflexivity|].
      intros i Hi. rewrite tuple_length in Hi.
      destruct (Nat.lt_ge_cases i (length (rows k))) as [C|C].
      - rewrite !tuple_nth1 by exact C. rewrite V1 by (apply pos_lt; auto). rewrite P3 by auto. reflexivity.
      - replace i with (length (rows k) + (i - length (rows k))) by lia.
        assert (C2 : i - length (rows k) < length (rows k)) by lia.
        rewrite !tuple_nth2 by exact C2.
        assert (EW : wck pc (pos k (i - length (rows k)) (pi l)) = wck pc (pos k (i - length (rows k)) l)).
        { unfold wck. f_equal. apply pos_same; auto. }
        rewrite EW. destruct (wck pc (pos k (i - length (rows k)) l)) eqn:W; auto.
        rewrite V2; [|apply pos_lt; auto|apply writable_ck; exact W]. rewrite P3 by auto. reflexivity. }
    rewrite E. unfold tuples. apply Permutation_map. apply Permutation_sym, perm_seq; auto.
Qed.

(** Equal link tuples: equal lists. *)
Lemma map_inj_in : forall A B (f g : A -> B) l x, map f l = map g l -> In x l -> f x = g x.
Proof. clear. induction l; intros x E H; [destruct H|]. cbn in E. injection E as E1 E2. destruct H as [->|H]; auto. Qed.

Lemma in_dec_rows : forall i, (exists k r l, In k (symms pc) /\ r < length (rows k) /\ l < nlinks k /\ i = pos k r l)
  \/ (forall k row, In k (symms pc) -> In row (rows k) -> ~ In i row).
Proof.
  intros i. destruct (in_dec Nat.eq_dec i (concat (concat (map rows (symms pc))))) as [H|H].
  - left. apply in_concat in H. destruct H as (row & H1 & H2). apply in_concat in H1.
    destruct H1 as (rs & H3 & H4). apply in_map_iff in H3. destruct H3 as (k & <- & Hk).
    pose proof (lo_length _ LO k row Hk H4) as EL.
    apply In_nth with (d := []) in H4. destruct H4 as (r & R1 & R2).
    apply In_nth with (d := 0) in H2. destruct H2 as (l & L1 & L2).
    exists k, r, l. split; auto. split; auto. split; [lia|]. unfold pos. rewrite R2. auto.
  - right. intros k row Hk Hr Hi. apply H. apply in_concat. exists row. split; auto.
    apply in_concat. exists (rows k). split; auto. apply in_map. exact Hk.
Qed.

Definition stable (v : list nat) : Prop :=
  forall k l, In k (symms pc) -> S l < nlinks k -> lex_lt (swap_links pc k l v) v = false.

Lemma stable_ordered : forall v k, length v = nr pc + nw pc -> stable v -> In k (symms pc) ->
  ordered (tuples v k).
Proof.
  intros v k HL HS Hk. apply ordered_adjacent. intros i Hi. unfold tuples in Hi.
  rewrite map_length, seq_length in Hi. unfold tuples.
  rewrite (nth_indep _ [] (tuple v k 0)) by (rewrite map_length, seq_length; lia).
  rewrite (nth_indep _ [] (tuple v k 0)) by (rewrite map_length, seq_length; lia).
  rewrite !map_nth, !seq_nth by lia. cbn [Nat.add].
  unfold lex_le. destruct (lex_lt (tuple v k (S i)) (tuple v k i)) eqn:E; auto.
  apply swap_lower in E; auto. rewrite (HS k i Hk Hi) in E. discriminate.
Qed.

Theorem stable_unique : forall a b, length a = nr pc + nw pc -> length b = nr pc + nw pc ->
  same_class a b -> stable a -> stable b -> a = b.
Proof.
  intros a b La Lb [C1 C2] Sa Sb.
  assert (ET : forall k l, In k (symms pc) -> l < nlinks k -> tuple a k l = tuple b k l).
  { intros k l Hk Hl. assert (E : tuples a k = tuples b k).
    { apply ordered_perm_eq; auto; apply stable_ordered; auto. }
    unfold tuples in E. apply (map_inj_in _ _ _ _ _ l E). apply in_seq. lia. }
  apply (views_eq pc); auto.
  - intros i Hi. destruct (in_dec_rows i) as [(k & r & l & Hk & Hr & Hl & ->)|Ho].
    + rewrite <- !tuple_nth1 by exact Hr. rewrite ET; auto.
    + apply C1; auto.
  - intros i Hi W. destruct (in_dec_rows i) as [(k & r & l & Hk & Hr & Hl & ->)|Ho].
    + pose proof (tuple_nth2 a k l r Hr) as E1. pose proof (tuple_nth2 b k l r Hr) as E2.
      rewrite W in E1, E2. rewrite <- E1, <- E2, ET; auto.
    + apply C1; auto.
Qed.

(** ** Renaming is an equivalence along the loop *)
Lemma relinking_id : relinking pc (fun i => i).
Proof.
  split; auto. intros k Hk. exists (fun l => l). split; auto.
Qed.

Lemma relinking_comp : forall s t, relinking pc s -> relinking pc t -> relinking pc (fun i => s (t i)).
Proof.
  intros s t [S1 S2] [T1 T2]. split.
  - intros i Hi. rewrite T1, S1; auto.
  - intros k Hk. destruct (S2 k Hk) as (p & P1 & P2 & P3), (T2 k Hk) as (q & Q1 & Q2 & Q3).
    exists (fun l => p (q l)). split; [auto|]. split.
    + intros l l' Hl Hl' E. apply Q2; auto.
    + intros r l Hr Hl. rewrite Q3, P3; auto.
Qed.

Lemma relinking_keeps : forall s, relinking pc s -> keeps pc s.
Proof.
  intros s [S1 S2] i Hi. destruct (in_dec_rows i) as [(k & r & l & Hk & Hr & Hl & ->)|Ho].
  - destruct (S2 k Hk) as (p & P1 & P2 & P3). rewrite P3 by auto. split; [apply pos_lt; auto|].
    apply pos_same; auto.
  - rewrite S1 by exact Ho. auto.
Qed.

Lemma relinked_through : forall a b, relinked pc a b <-> exists s, relinking pc s /\ through pc s a b.
Proof.
  intros a b. split; intros (s & H1 & H2 & H3); exists s; (split; [exact H1|]); (split; [exact H2|]).
  - intros i Hi W. apply H3; auto. apply writable_ck. exact W.
  - intros i Hi W. apply H3; auto. apply writable_ck. exact W.
Qed.

Lemma relinked_refl : forall a, relinked pc a a.
Proof. intros a. exists (fun i => i). split; [apply relinking_id|]. auto. Qed.

Lemma relinked_trans : forall a b c, relinked pc a b -> relinked pc b c -> relinked pc a c.
Proof.
  intros a b c H1 H2. apply relinked_through in H1, H2. apply relinked_through.
  destruct H1 as (s & S1 & S2), H2 as (t & T1 & T2).
  exists (fun i => s (t i)). split; [apply relinking_comp; auto|].
  apply through_comp with (b := b); auto. apply relinking_keeps. exact T1.
Qed.

Lemma relinked_swap : forall k l v, In k (symms pc) -> S l < nlinks k -> length v = nr pc + nw pc ->
  relinked pc v (swap_links pc k l v) /\ relinked pc (swap_links pc k l v) v.
Proof.
  intros k l v Hk Hl HL.
  destruct (swap_links_views k l v Hk Hl HL) as (L' & t & K & [TV1 TV2] & R & T1 & T2).
  assert (INV : forall i, i < nr pc -> t (t i) = i).
  { intros i Hi. assert (D : forall n, (exists r, r < n /\ (i = pos k r l \/ i = pos k r (S l))) \/
                   (forall r, r < n -> i <> pos k r l /\ i <> pos k r (S l))).
    { induction n as [|n [IH|IH]]; [right; lia| |].
      - left. destruct IH as (r & A & B). exists r. split; auto.
      - destruct (Nat.eq_dec i (pos k n l)); [left; exists n; auto|].
        destruct (Nat.eq_dec i (pos k n (S l))); [left; exists n; auto|].
        right. intros r Hr. destruct (Nat.eq_dec r n) as [->|]; auto. apply IH. lia. }
    destruct (D (length (rows k))) as [(r & Hr & Er)|NE].
    - destruct (T1 r Hr) as [E1 E2]. destruct Er as [->| ->]; [rewrite E1, E2|rewrite E2, E1]; auto.
    - rewrite !T2; auto. rewrite T2; auto. }
  split; apply relinked_through; exists t; (split; [exact R|]).
  - split; auto.
  - split.
    + intros i Hi. destruct (K i Hi) as [K1 K2]. rewrite TV1 by exact K1. rewrite INV by exact Hi. reflexivity.
    + intros i Hi W. destruct (K i Hi) as [K1 K2]. rewrite TV2.
      * rewrite INV by exact Hi. reflexivity.
      * exact K1.
      * unfold wck in *. rewrite K2. exact W.
Qed.

(** ** The loop *)
Definition both (a b : list nat) : Prop :=
  length b = nr pc + nw pc /\ valid pc b /\ relinked pc a b /\ relinked pc b a.

Lemma both_swap : forall a v k l, both a v -> In k (symms pc) -> S l < nlinks k ->
  both a (swap_links pc k l v).
Proof.
  intros a v k l (B1 & B2 & B3 & B4) Hk Hl.
  destruct (relinked_swap k l v Hk Hl B1) as [R1 R2].
  destruct (swap_links_views k l v Hk Hl B1) as (L' & t & K & TV & _).
  split; [lia|]. split; [|split].
  - apply through_valid with (s := t) (a := v); auto. lia.
  - apply relinked_trans with v; auto.
  - apply relinked_trans with v; auto.
Qed.

Definition idx (v : list nat) : nat := index_of_state v (doms pc).

(** What one round has established after trying the pairs in [done]. *)
Definition progress (a v : list nat) (done : list (links * nat)) (st : list nat * bool) : Prop :=
  both a (fst st) /\
  ((snd st = false /\ fst st = v /\
    forall k l, In (k, l) done -> lex_lt (swap_links pc k l v) v = false) \/
   (snd st = true /\ idx (fst st) < idx v)).

Lemma try_swap_progress : forall a v done st k l, In k (symms pc) -> S l < nlinks k ->
  progress a v done st -> progress a v (done ++ [(k, l)]) (try_swap pc k st l).
Proof.
  intros a v done [x b] k l Hk Hl [B P]. unfold try_swap. cbn [fst snd] in *.
  destruct (lex_lt (swap_links pc k l x) x) eqn:E.
  - pose proof (both_swap _ _ _ _ B Hk Hl) as B'. split; [exact B'|]. right. cbn [fst snd]. split; auto.
    rewrite (lex_lt_index _ _ (doms pc)) in E; [|apply B'|apply B]. apply Nat.ltb_lt in E.
    fold (idx (swap_links pc k l x)) in E. fold (idx x) in E.
    destruct P as [(_ & -> & _)|(_ & P)]; lia.
  - split; auto. cbn [fst snd]. destruct P as [(P1 & P2 & P3)|P]; [left|right; exact P].
    split; auto. split; auto. intros k' l' Hin. apply in_app_or in Hin.
    destruct Hin as [Hin|[Hin|[]]]; auto. injection Hin as <- <-. subst. exact E.
Qed.

Lemma links_progress : forall a v k ls done st, In k (symms pc) -> (forall l, In l ls -> S l < nlinks k) ->
  progress a v done st ->
  progress a v (done ++ map (fun l => (k, l)) ls) (fold_left (try_swap pc k) ls st).
Proof.
  intros a v k. induction ls as [|l ls IH]; intros done st Hk Hls P; cbn [fold_left map].
  - rewrite app_nil_r. exact P.
  - change (done ++ (k, l) :: map (fun l0 => (k, l0)) ls) with (done ++ [(k, l)] ++ map (fun l0 => (k, l0)) ls).
    rewrite app_assoc. apply IH; auto.
    + intros x Hx. apply Hls. right. exact Hx.
    + apply try_swap_progress; auto. apply Hls. left. reflexivity.
Qed.

Lemma round_progress : forall a v, both a v ->
  progress a v (flat_map (fun k => map (fun l => (k, l)) (seq 0 (nlinks k - 1))) (symms pc)) (rep_round pc v).
Proof.
  intros a v B. unfold rep_round.
  assert (G : forall ks done st, (forall k, In k ks -> In k (symms pc)) -> progress a v done st ->
     progress a v (done ++ flat_map (fun k => map (fun l => (k, l)) (seq 0 (nlinks k - 1))) ks)
       (fold_left (fun st k => fold_left (try_swap pc k) (seq 0 (nlinks k - 1)) st) ks st)).
  { induction ks as [|k ks IH]; intros done st Hks P; cbn [flat_map fold_left].
    - rewrite app_nil_r. exact P.
    - rewrite app_assoc. apply IH; [intros; apply Hks; right; auto|].
      apply links_progress; auto; [apply Hks; left; auto|]. intros l Hl. apply in_seq in Hl. lia. }
  apply (G (symms pc) [] (v, false)); auto.
  split; auto. left. cbn. split; auto. split; auto. intros k l [].
Qed.

Lemma rep_loop_spec : forall fuel a v, both a v -> idx v < fuel ->
  exists w, rep_loop fuel pc v = Some w /\ both a w /\ stable w /\ idx w <= idx v.
Proof.
  induction fuel as [|f IH]; intros a v B H; [lia|]. cbn [rep_loop].
  pose proof (round_progress a v B) as P. destruct (rep_round pc v) as [x ch]. destruct P as [B' P].
  cbn [fst snd] in *. destruct P as [(-> & -> & P)|(-> & P)].
  - exists v. split; auto. split; auto. split; [|lia]. intros k l Hk Hl. apply P.
    apply in_flat_map. exists k. split; auto. apply in_map_iff. exists l. split; auto. apply in_seq. lia.
  - destruct (IH a x B') as (w & W1 & W2 & W3 & W4); [lia|]. exists w. split; auto. split; auto.
    split; auto. lia.
Qed.
End Links.
