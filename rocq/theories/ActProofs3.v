(** Representatives of actions in a network, layouts of declared processes, inverse renamings. *)
From Coq Require Import List Arith Bool Lia Permutation FinFun.
From Verif Require Import FinLib Radix ActModel ActSpec ActProofs ActProofs2.
Import ListNotations.

(** ** Representatives in a network *)
Lemma valid_length : forall pc v, valid pc v -> length v = nr pc + nw pc.
Proof. intros pc v H. apply Forall2_lt_nth in H. rewrite doms_length in H. apply H. Qed.

Theorem representative_spec : forall net i, i < actions_in net ->
  let a := act_of net i in
  let pc := nth (act_pc a) net pc0 in
  laid_out pc ->
  exists r, representative_action_index net i = Some r /\ r <= i /\
    act_pc (act_of net r) = act_pc a /\ both pc (vals a) (vals (act_of net r)) /\
    stable pc (vals (act_of net r)).
Proof.
  intros net i H a pc LO. destruct (act_of_spec net i H) as (H1 & H2 & H3).
  fold a in H1, H2, H3. fold pc in H2. destruct (com_nth net (act_pc a) H1) as (C1 & C2 & C3).
  unfold representative_action_index. fold a. rewrite C1. fold pc.
  assert (E : i = actions_in (firstn (act_pc a) net) + idx pc (vals a)).
  { unfold id_of in H3. rewrite C1, C2 in H3. fold pc in H3. unfold idx. lia. }
  assert (B : both pc (vals a) (vals a)).
  { split; [apply valid_length; exact H2|]. split; [exact H2|]. split; apply relinked_refl. }
  destruct (rep_loop_spec pc LO (S i) (vals a) (vals a) B) as (w & W1 & W2 & W3 & W4); [lia|].
  rewrite W1. set (b := {| act_pc := act_pc a; vals := w |}).
  exists (id_of net b). destruct W2 as (L & V & R1 & R2).
  destruct (id_of_spec net b H1 V) as (D1 & D2 & D3).
  split; [reflexivity|]. split.
  - unfold id_of. cbn [act_pc vals b]. rewrite C1, C2. fold pc. fold (idx pc w). lia.
  - rewrite D2. cbn [act_pc vals b]. split; [reflexivity|]. split; [|exact W3].
    split; [exact L|]. split; [exact V|]. split; assumption.
Qed.

Theorem representative_iff : forall net i j, i < actions_in net -> j < actions_in net ->
  laid_out (nth (act_pc (act_of net i)) net pc0) -> laid_out (nth (act_pc (act_of net j)) net pc0) ->
  representative_action_index net i = representative_action_index net j <-> same_action_class net i j.
Proof.
  intros net i j Hi Hj Li Lj.
  destruct (representative_spec net i Hi Li) as (r & R1 & R2 & R3 & R4 & R5).
  destruct (representative_spec net j Hj Lj) as (s & S1 & S2 & S3 & S4 & S5).
  rewrite R1, S1. split.
  - intros E. injection E as <-. unfold same_action_class. split; [congruence|].
    assert (EP : act_pc (act_of net i) = act_pc (act_of net j)) by congruence.
    destruct R4 as (_ & _ & A & _), S4 as (_ & _ & _ & B). rewrite <- EP in B.
    eapply relinked_trans; eauto.
  - intros [E R]. rewrite <- E in S4, S5. f_equal.
    assert (EV : vals (act_of net r) = vals (act_of net s)).
    { destruct R4 as (A1 & A2 & A3 & A4), S4 as (B1 & B2 & B3 & B4).
      apply (stable_unique _ Li); auto. apply (relinked_same_class _ Li).
      apply (relinked_trans _ Li _ (vals (act_of net i))); auto.
      apply (relinked_trans _ Li _ (vals (act_of net j))); auto. }
    destruct (act_of_spec net r) as (_ & _ & I1); [lia|].
    destruct (act_of_spec net s) as (_ & _ & I2); [lia|].
    rewrite <- I1, <- I2. f_equal.
    destruct (act_of net r) as [p1 v1], (act_of net s) as [p2 v2]. cbn in *. congruence.
Qed.

(** ** Declared processes are laid out in order *)
Lemma block_rows_nth : forall m base n r, r < m -> nth r (block_rows base n m) [] = seq (base + r * n) n.
Proof.
  induction m as [|m IH]; intros base n r H; [lia|]. destruct r as [|r]; cbn [block_rows nth].
  - f_equal. lia.
  - rewrite IH by lia. f_equal. lia.
Qed.

Lemma block_rows_length : forall m base n, length (block_rows base n m) = m.
Proof. induction m; intros; cbn; auto. Qed.

Lemma block_rows_concat : forall m base n, concat (block_rows base n m) = seq base (n * m).
Proof.
  induction m as [|m IH]; intros base n; cbn [block_rows concat].
  - rewrite Nat.mul_0_r. reflexivity.
  - rewrite IH. replace (n * S m) with (n + n * m) by lia. rewrite seq_app. reflexivity.
Qed.

Lemma block_pos : forall base n m r l, r < m -> l < n ->
  pos {| nlinks := n; rows := block_rows base n m |} r l = base + r * n + l.
Proof.
  intros. unfold pos. cbn [rows]. rewrite block_rows_nth by auto. rewrite seq_nth by auto. reflexivity.
Qed.

Lemma decl_accs_length : forall n vs, length (decl_accs (Symmetric n vs)) = n * length vs.
Proof. intros n. induction vs as [|a vs IH]; cbn in *; [lia|]. rewrite app_length, repeat_length, IH. lia. Qed.

Lemma in_decl_symms : forall ds base k, In k (decl_symms base ds) ->
  exists ds1 n vs ds2, ds = ds1 ++ Symmetric n vs :: ds2 /\
    k = {| nlinks := n; rows := block_rows (base + length (flat_map decl_accs ds1)) n (length vs) |}.
Proof.
  induction ds as [|d ds IH]; intros base k H; [destruct H|]. destruct d as [a|n vs]; cbn [decl_symms] in H.
  - destruct (IH _ _ H) as (ds1 & n & vs & ds2 & -> & ->). exists (Plain a :: ds1), n, vs, ds2.
    split; auto. cbn. do 2 f_equal. lia.
  - destruct H as [<-|H].
    + exists [], n, vs, ds. split; auto. cbn. rewrite Nat.add_0_r. reflexivity.
    + destruct (IH _ _ H) as (ds1 & n' & vs' & ds2 & -> & ->).
      exists (Symmetric n vs :: ds1), n', vs', ds2. split; auto. cbn [flat_map].
      rewrite app_length, decl_accs_length. do 2 f_equal. lia.
Qed.

Lemma decl_symms_NoDup : forall ds base, NoDup (concat (concat (map rows (decl_symms base ds)))) /\
  forall x, In x (concat (concat (map rows (decl_symms base ds)))) -> base <= x.
Proof.
  induction ds as [|d ds IH]; intros base.
  - cbn. split; [constructor|]. intros x [].
  - destruct d as [a|n vs]; cbn [decl_symms].
    + destruct (IH (S base)) as [I1 I2]. split; auto. intros x Hx. apply I2 in Hx. lia.
    + cbn [map rows concat]. rewrite concat_app, block_rows_concat.
      destruct (IH (base + n * length vs)) as [I1 I2]. split.
      * revert I1 I2. generalize (concat (concat (map rows (decl_symms (base + n * length vs) ds)))) as m.
        generalize (n * length vs) as q. clear. intros q m. revert base.
        induction q as [|q IHq]; intros base I1 I2; cbn [seq app]; auto. constructor.
        -- intros C. apply in_app_or in C. destruct C as [C|C].
           ++ apply in_seq in C. lia.
           ++ apply I2 in C. lia.
        -- apply (IHq (S base)); auto. intros x Hx. apply I2 in Hx. lia.
      * intros x Hx. apply in_app_or in Hx. destruct Hx as [Hx|Hx]; [apply in_seq in Hx; lia|].
        apply I2 in Hx. lia.
Qed.

Lemma nth_flat_repeat : forall n vs r l d (a0 : access), r < length vs -> l < n ->
  nth (r * n + l) (flat_map (fun a => repeat a n) vs) d = nth r vs a0.
Proof.
  intros n. induction vs as [|a vs IH]; intros r l d a0 Hr Hl; cbn in Hr; [lia|].
  destruct r as [|r]; cbn [flat_map nth].
  - rewrite app_nth1 by (rewrite repeat_length; lia). cbn.
    rewrite (nth_indep _ d a) by (rewrite repeat_length; lia). apply nth_repeat.
  - rewrite app_nth2 by (rewrite repeat_length; lia). rewrite repeat_length.
    replace (S r * n + l - n) with (r * n + l) by lia. apply IH; auto. lia.
Qed.

Theorem declare_laid_out : forall ds, (forall n vs, In (Symmetric n vs) ds -> 1 <= n) ->
  laid_out (declare ds).
Proof.
  intros ds Hn.
  assert (R : forall k row, In k (symms (declare ds)) -> In row (rows k) ->
    exists ds1 vs ds2 r, ds = ds1 ++ Symmetric (nlinks k) vs :: ds2 /\ r < length vs /\
      row = seq (length (flat_map decl_accs ds1) + r * nlinks k) (nlinks k)).
  { intros k row Hk Hr. apply in_decl_symms in Hk. destruct Hk as (ds1 & n & vs & ds2 & E & ->).
    cbn [nlinks rows] in *. apply In_nth with (d := []) in Hr. destruct Hr as (r & R1 & <-).
    rewrite block_rows_length in R1. exists ds1, vs, ds2, r. split; auto. split; auto.
    rewrite block_rows_nth by exact R1. reflexivity. }
  assert (A : forall ds1 n vs ds2 r l, ds = ds1 ++ Symmetric n vs :: ds2 -> r < length vs -> l < n ->
    length (flat_map decl_accs ds1) + r * n + l < length (accs (declare ds)) /\
    nth (length (flat_map decl_accs ds1) + r * n + l) (accs (declare ds)) acc0 = nth r vs acc0).
  { intros ds1 n vs ds2 r l -> Hr Hl. cbn [declare accs]. rewrite flat_map_app. cbn [flat_map].
    assert (Hlt : r * n + l < n * length vs) by nia. split.
    - rewrite !app_length, decl_accs_length. lia.
    - rewrite app_nth2 by lia. rewrite app_nth1 by (rewrite decl_accs_length; lia).
      replace (length (flat_map decl_accs ds1) + r * n + l - length (flat_map decl_accs ds1))
        with (r * n + l) by lia.
      apply (nth_flat_repeat n vs r l acc0 acc0); auto. }
  constructor.
  - intros k Hk. apply in_decl_symms in Hk. destruct Hk as (ds1 & n & vs & ds2 & -> & ->). cbn.
    apply (Hn n vs). apply in_or_app. right. left. reflexivity.
  - intros k row Hk Hr. destruct (R k row Hk Hr) as (ds1 & vs & ds2 & r & E & R1 & ->). apply seq_length.
  - intros k row p Hk Hr Hp. destruct (R k row Hk Hr) as (ds1 & vs & ds2 & r & E & R1 & ->).
    apply in_seq in Hp. destruct (A ds1 _ vs ds2 r (p - (length (flat_map decl_accs ds1) + r * nlinks k)) E R1) as [A1 _]; [lia|].
    lia.
  - intros k row p q Hk Hr Hp Hq. destruct (R k row Hk Hr) as (ds1 & vs & ds2 & r & E & R1 & ->).
    apply in_seq in Hp, Hq.
    destruct (A ds1 _ vs ds2 r (p - (length (flat_map decl_accs ds1) + r * nlinks k)) E R1) as [_ A1]; [lia|].
    destruct (A ds1 _ vs ds2 r (q - (length (flat_map decl_accs ds1) + r * nlinks k)) E R1) as [_ A2]; [lia|].
    replace (length (flat_map decl_accs ds1) + r * nlinks k + (p - (length (flat_map decl_accs ds1) + r * nlinks k)))
      with p in A1 by lia.
    replace (length (flat_map decl_accs ds1) + r * nlinks k + (q - (length (flat_map decl_accs ds1) + r * nlinks k)))
      with q in A2 by lia. congruence.
  - apply (decl_symms_NoDup ds 0).
  - intros k r l Hk Hr Hl. apply in_decl_symms in Hk. destruct Hk as (ds1 & n & vs & ds2 & _ & ->).
    cbn [rows nlinks] in *. rewrite block_rows_length in Hr. rewrite !block_pos by lia. lia.
  - intros k r r' l Hk Hrr Hr Hl. apply in_decl_symms in Hk. destruct Hk as (ds1 & n & vs & ds2 & _ & ->).
    cbn [rows nlinks] in *. rewrite block_rows_length in Hr. rewrite !block_pos by lia. nia.
Qed.

(** ** Renamings can be undone *)
Definition inv (n : nat) (f : nat -> nat) (j : nat) : nat :=
  match find (fun i => f i =? j) (seq 0 n) with Some i => i | None => j end.

Lemma inv_left : forall n f i, (forall x y, x < n -> y < n -> f x = f y -> x = y) -> i < n ->
  inv n f (f i) = i.
Proof.
  intros n f i INJ Hi. unfold inv. destruct (find _ _) as [x|] eqn:F.
  - apply find_some in F. destruct F as [F1 F2]. apply in_seq in F1. apply Nat.eqb_eq in F2.
    apply INJ; auto; lia.
  - pose proof (find_none _ _ F i) as C. cbn beta in C. rewrite Nat.eqb_refl in C.
    discriminate C. apply in_seq. lia.
Qed.

Lemma surj_of_inj : forall n f, (forall i, i < n -> f i < n) ->
  (forall x y, x < n -> y < n -> f x = f y -> x = y) -> forall j, j < n -> exists i, i < n /\ f i = j.
Proof.
  intros n f H1 H2 j Hj.
  assert (P : Permutation (map f (seq 0 n)) (seq 0 n)) by (apply perm_seq; auto).
  assert (I : In j (map f (seq 0 n))).
  { apply (Permutation_in _ (Permutation_sym P)). apply in_seq. lia. }
  apply in_map_iff in I. destruct I as (i & E & Hi). apply in_seq in Hi. exists i. split; auto. lia.
Qed.

Section Inv.
Variable pc : pcsymm.
Hypothesis LO : laid_out pc.

Lemma relinking_inj : forall s, relinking pc s -> forall i j, i < nr pc -> j < nr pc -> s i = s j -> i = j.
Proof.
  intros s [S1 S2] i j Hi Hj E.
  destruct (in_dec_rows pc LO i) as [(k & r & l & Hk & Hr & Hl & ->)|Ho];
  destruct (in_dec_rows pc LO j) as [(k' & r' & l' & Hk' & Hr' & Hl' & ->)|Ho'].
  - destruct (S2 k Hk) as (p & P1 & P2 & P3). destruct (S2 k' Hk') as (p' & P1' & P2' & P3').
    rewrite P3, P3' in E by auto.
    assert (k = k') by (apply (symm_disjoint pc LO k k' r (p l) r' (p' l')); auto). subst k'.
    rewrite <- P3, <- P3' in E by auto. rewrite !P3 in E by auto.
    apply (pos_inj pc LO) in E; auto. destruct E as [-> E]. apply P2 in E; auto.
  - exfalso. destruct (S2 k Hk) as (p & P1 & P2 & P3). rewrite P3, (S1 j Ho') in E by auto. subst j.
    destruct (pos_in pc LO k r (p l) Hk Hr (P1 l Hl)) as [A B]. exact (Ho' _ _ Hk A B).
  - exfalso. destruct (S2 k' Hk') as (p & P1 & P2 & P3). rewrite P3, (S1 i Ho) in E by auto. subst i.
    destruct (pos_in pc LO k' r' (p l') Hk' Hr' (P1 l' Hl')) as [A B]. exact (Ho _ _ Hk' A B).
  - rewrite (S1 i Ho), (S1 j Ho') in E. exact E.
Qed.

Lemma relinking_surj : forall s, relinking pc s -> forall j, j < nr pc -> exists i, i < nr pc /\ s i = j.
Proof.
  intros s R. apply surj_of_inj.
  - intros i Hi. apply (relinking_keeps pc LO s R i Hi).
  - intros. apply (relinking_inj s R); auto.
Qed.

Lemma relinking_inverse : forall s, relinking pc s ->
  exists t, relinking pc t /\ (forall i, i < nr pc -> t (s i) = i) /\ (forall i, i < nr pc -> s (t i) = i).
Proof.
  intros s R. pose proof (relinking_inj s R) as INJ. exists (inv (nr pc) s).
  assert (T1 : forall i, i < nr pc -> inv (nr pc) s (s i) = i) by (intros; apply inv_left; auto).
  split; [|split; auto].
  - pose proof R as [S1 S2]. split.
    + intros i Hi. destruct (Nat.lt_ge_cases i (nr pc)) as [L|L].
      * rewrite <- (S1 i Hi) at 1. apply T1. exact L.
      * unfold inv. destruct (find _ _) as [x|] eqn:F; auto. apply find_some in F.
        destruct F as [F1 F2]. apply in_seq in F1. apply Nat.eqb_eq in F2.
        pose proof (relinking_keeps pc LO s R x). lia.
    + intros k Hk. destruct (S2 k Hk) as (p & P1 & P2 & P3). exists (inv (nlinks k) p).
      assert (SU : forall l, l < nlinks k -> exists l0, l0 < nlinks k /\ p l0 = l)
        by (apply surj_of_inj; auto).
      split; [|split].
      * intros l Hl. destruct (SU l Hl) as (l0 & L0 & <-). rewrite inv_left; auto.
      * intros l l' Hl Hl' E. destruct (SU l Hl) as (l0 & L0 & <-), (SU l' Hl') as (l1 & L1 & <-).
        rewrite !inv_left in E by auto. congruence.
      * intros r l Hr Hl. destruct (SU l Hl) as (l0 & L0 & <-). rewrite inv_left by auto.
        rewrite <- P3 by auto. apply T1. apply (pos_lt pc LO); auto.
  - intros i Hi. destruct (relinking_surj s R i Hi) as (j & Hj & <-). rewrite T1 by exact Hj. reflexivity.
Qed.

(** A value list read through a renaming. *)
Definition rename (s : nat -> nat) (v : list nat) : list nat :=
  map (fun i => tested v (s i)) (seq 0 (nr pc)) ++
  map (fun w => assigned pc v (s (nth w (wmap pc) 0))) (seq 0 (nw pc)).

Lemma rename_length : forall s v, length (rename s v) = nr pc + nw pc.
Proof. intros. unfold rename. rewrite app_length, !map_length, !seq_length. reflexivity. Qed.

Lemma rename_through : forall s v, through pc s v (rename s v).
Proof.
  intros s v. split.
  - intros i Hi. unfold tested at 1, rename. rewrite app_nth1 by (rewrite map_length, seq_length; exact Hi).
    set (f := fun i => tested v (s i)).
    rewrite (nth_indep _ 0 (f 0)) by (rewrite map_length, seq_length; exact Hi).
    rewrite map_nth, seq_nth by exact Hi. reflexivity.
  - intros i Hi W. destruct (nth_place pc i Hi W) as [P1 P2]. unfold assigned at 1, rename. fold (nr pc).
    rewrite app_nth2 by (rewrite map_length, seq_length; lia). rewrite map_length, seq_length.
    replace (nr pc + place pc i - nr pc) with (place pc i) by lia.
    set (f := fun w => assigned pc v (s (nth w (wmap pc) 0))).
    rewrite (nth_indep _ 0 (f 0)) by (rewrite map_length, seq_length; exact P1).
    rewrite map_nth, seq_nth by exact P1. unfold f. cbn [Nat.add]. rewrite P2. reflexivity.
Qed.

Lemma relinked_sym : forall a b, relinked pc a b -> relinked pc b a.
Proof.
  intros a b H. apply relinked_through in H. destruct H as (s & R & [V1 V2]).
  destruct (relinking_inverse s R) as (t & T & T1 & T2).
  apply relinked_through. exists t. split; auto. split.
  - intros i Hi. destruct (relinking_keeps pc LO t T i Hi) as [K1 K2]. rewrite V1 by exact K1.
    rewrite T2 by exact Hi. reflexivity.
  - intros i Hi W. destruct (relinking_keeps pc LO t T i Hi) as [K1 K2]. rewrite V2.
    + rewrite T2 by exact Hi. reflexivity.
    + exact K1.
    + unfold wck in *. rewrite K2. exact W.
Qed.
End Inv.
