(** The table of variables: every member of every array is there once. *)
From Coq Require Import String List Arith Bool ZArith Lia Permutation.
From Verif Require Import FinLib ParseModel AccessModel FmlaModel FmlaSpec ActModel NetModel IntModel ExprModel ExprSpec CmdModel DeclModel HeadModel HeadSpec.
Import ListNotations.
Local Open Scope list_scope.
Local Open Scope nat_scope.

(** ** The order *)
Lemma insert_perm : forall a l, Permutation (insert_pair a l) (a :: l).
Proof. induction l as [|b l IH]; cbn [insert_pair]; [auto|]. destruct (pair_le a b); [auto|]. rewrite IH. constructor. Qed.
Lemma sort_perm : forall l, Permutation (sort_pairs l) l.
Proof. induction l as [|a l IH]; cbn; [auto|]. unfold sort_pairs in IH. rewrite insert_perm, IH. auto. Qed.

Lemma refsz_step_pos : forall r z, 0 < r -> 0 < refsz_step r z.
Proof.
  intros r z H. unfold refsz_step. destruct ((r =? 1) && (r <? z)) eqn:E.
  - apply andb_true_iff in E. destruct E as (_ & E). apply Nat.ltb_lt in E. destruct ((1 <? z) && (z <? z)); lia.
  - destruct ((1 <? z) && (z <? r)) eqn:E2; [|auto]. apply andb_true_iff in E2. destruct E2 as (E2 & _). apply Nat.ltb_lt in E2. lia.
Qed.
Lemma refsz_pos : forall l, 0 < refsz_of l.
Proof.
  intros l. unfold refsz_of. assert (H : forall r, 0 < r -> 0 < fold_left refsz_step l r).
  { induction l as [|z l IH]; intros r R; cbn; auto. apply IH. apply refsz_step_pos. auto. }
  apply H. lia.
Qed.
Lemma ceil_enough : forall a b, 0 < b -> a <= b * ceil_quot a b.
Proof.
  intros a b B. unfold ceil_quot. pose proof (Nat.div_mod (a + b - 1) b). pose proof (Nat.mod_upper_bound (a + b - 1) b). lia.
Qed.

(** The cells in the order in which they are committed *)
Definition cut_cells (refsz cut : nat) (p : nat * nat) : list (nat * nat) :=
  map (pair (snd p)) (filter (fun j => j <? fst p) (seq (cut * ceil_quot (fst p) refsz) (ceil_quot (fst p) refsz))).
Definition cells (sizes : list nat) : list (nat * nat) :=
  flat_map (fun cut => flat_map (cut_cells (refsz_of sizes) cut) (sort_pairs (combine sizes (seq 0 (length sizes))))) (seq 0 (refsz_of sizes)).
Definition commit (T : vtable) (aj : nat * nat) : vtable := commit_variable (fst aj) T (snd aj).

Lemma fold_flat : forall A B (f : vtable -> B -> vtable) (g : A -> list B) (k : vtable -> A -> vtable),
  (forall T a, k T a = fold_left f (g a) T) -> forall l T, fold_left k l T = fold_left f (flat_map g l) T.
Proof. intros A B f g k H. induction l as [|a l IH]; intros T; cbn; auto. rewrite fold_left_app, <- H. auto. Qed.
Lemma commit_all : forall sizes, commit_variables sizes = fold_left commit (cells sizes) (mkVtable [] (map (repeat 0) sizes)).
Proof.
  intros sizes. unfold commit_variables, cells. apply fold_flat. intros T cut. apply fold_flat. intros T' p. unfold commit_cut, cut_cells.
  generalize (filter (fun j => j <? fst p) (seq (cut * ceil_quot (fst p) (refsz_of sizes)) (ceil_quot (fst p) (refsz_of sizes)))). intros l. revert T'.
  induction l as [|j l IH]; intros T'; cbn; auto.
Qed.

Lemma filter_flat : forall A B (p : B -> bool) (g : A -> list B) l, filter p (flat_map g l) = flat_map (fun a => filter p (g a)) l.
Proof. induction l as [|a l IH]; cbn; auto. rewrite filter_app, IH. auto. Qed.
Lemma flat_ext : forall A B (f g : A -> list B) l, (forall a, In a l -> f a = g a) -> flat_map f l = flat_map g l.
Proof. induction l as [|a l IH]; cbn; intros H; auto. rewrite H, IH; auto. Qed.
Lemma flat_none : forall A B (f : A -> list B) l, (forall y, In y l -> f y = []) -> flat_map f l = [].
Proof. induction l as [|a l IH]; cbn; intros H; auto. rewrite H, IH; auto. Qed.
(** One of the lists is left *)
Lemma flat_one : forall A B (f : A -> list B) l x, NoDup l -> In x l -> (forall y, In y l -> y <> x -> f y = []) -> flat_map f l = f x.
Proof.
  induction l as [|y l IH]; intros x N I H; [contradiction|]. inversion N; subst. cbn. destruct I as [->|I].
  - rewrite flat_none; [apply app_nil_r|]. intros z Z. apply H; [right; auto|]. intros ->. contradiction.
  - rewrite H; [|left; auto|intros ->; contradiction]. cbn. apply IH; auto. intros z Z. apply H. right; auto.
Qed.
Lemma filter_none : forall A (p : A -> bool) l, (forall x, In x l -> p x = false) -> filter p l = [].
Proof. induction l as [|a l IH]; cbn; intros H; auto. rewrite H by auto. auto. Qed.
Lemma filter_all : forall A (p : A -> bool) l, (forall x, In x l -> p x = true) -> filter p l = l.
Proof. induction l as [|a l IH]; cbn; intros H; auto. rewrite H by auto. rewrite IH; auto. Qed.
Lemma flat_map_map : forall A B C (f : B -> C) (g : A -> list B) l, flat_map (fun a => map f (g a)) l = map f (flat_map g l).
Proof. induction l as [|a l IH]; cbn; auto. rewrite map_app, IH. auto. Qed.
Lemma seq_chunks : forall st n b, flat_map (fun c => seq (c * st) st) (seq b n) = seq (b * st) (n * st).
Proof. intros st. induction n as [|n IH]; intros b; cbn [seq flat_map]; auto. rewrite IH. cbn [Nat.mul]. rewrite seq_app. do 2 f_equal. lia. Qed.
Lemma filter_lt_seq : forall n z, z <= n -> filter (fun j => j <? z) (seq 0 n) = seq 0 z.
Proof.
  intros n z H. replace n with (z + (n - z)) by lia. rewrite seq_app, filter_app, filter_all, filter_none, app_nil_r; auto.
  - intros x I. apply in_seq in I. apply Nat.ltb_ge. lia.
  - intros x I. apply in_seq in I. apply Nat.ltb_lt. lia.
Qed.

Lemma in_sizes : forall sizes z a, In (z, a) (sort_pairs (combine sizes (seq 0 (length sizes)))) <-> nth_error sizes a = Some z.
Proof.
  intros sizes z a.
  assert (H : forall l b, In (z, a) (combine l (seq b (length l))) <-> exists i, a = b + i /\ nth_error l i = Some z).
  { induction l as [|y l IH]; intros b; cbn.
    - split; [contradiction|]. intros (i & _ & E). destruct i; discriminate.
    - rewrite IH. split.
      + intros [E|(i & -> & E)]; [injection E as -> ->; exists 0|exists (S i)]; split; auto; lia.
      + intros ([|i] & -> & E); [left; cbn in E; injection E as ->; f_equal; lia|right; exists i; split; [lia|auto]]. }
  specialize (H sizes 0). cbn in H. split; intros X.
  - apply (Permutation_in _ (sort_perm _)) in X. rewrite H in X. destruct X as (i & -> & E). auto.
  - apply (Permutation_in _ (Permutation_sym (sort_perm _))). apply H. eauto.
Qed.
Lemma nodup_sizes : forall sizes, NoDup (sort_pairs (combine sizes (seq 0 (length sizes)))).
Proof.
  intros sizes. apply (Permutation_NoDup (Permutation_sym (sort_perm _))).
  assert (H : map snd (combine sizes (seq 0 (length sizes))) = seq 0 (length sizes)).
  { generalize 0. induction sizes as [|z l IH]; intros b; cbn; auto. rewrite IH. auto. }
  apply (NoDup_map_inv snd). rewrite H. apply seq_NoDup.
Qed.

(** The cells of an array, in order *)
Definition of_array (a : nat) (aj : nat * nat) : bool := fst aj =? a.
Lemma cells_of : forall sizes a z, nth_error sizes a = Some z -> filter (of_array a) (cells sizes) = map (pair a) (seq 0 z).
Proof.
  intros sizes a z E. unfold cells. rewrite filter_flat.
  rewrite (flat_ext _ _ _ (fun cut => map (pair a) (filter (fun j => j <? z) (seq (cut * ceil_quot z (refsz_of sizes)) (ceil_quot z (refsz_of sizes)))))).
  - rewrite flat_map_map. f_equal. rewrite <- filter_flat, seq_chunks. apply filter_lt_seq. apply ceil_enough. apply refsz_pos.
  - intros cut _. rewrite filter_flat. rewrite (flat_one _ _ _ _ (z, a)).
    + unfold cut_cells. cbn [fst snd]. apply filter_all. intros x I. apply in_map_iff in I. destruct I as (j & <- & _). unfold of_array. cbn. apply Nat.eqb_refl.
    + apply nodup_sizes.
    + apply in_sizes. auto.
    + intros (z', a') I NE. apply in_sizes in I. apply filter_none. unfold cut_cells. cbn [fst snd]. intros x J. apply in_map_iff in J. destruct J as (j & <- & _).
      unfold of_array. cbn. apply Nat.eqb_neq. intros ->. apply NE. congruence.
Qed.
Lemma in_cells : forall sizes a j, In (a, j) (cells sizes) <-> exists z, nth_error sizes a = Some z /\ j < z.
Proof.
  intros sizes a j. split.
  - intros I. unfold cells in I. apply in_flat_map in I. destruct I as (cut & _ & I). apply in_flat_map in I. destruct I as ((z, a') & I & J).
    apply in_sizes in I. unfold cut_cells in J. apply in_map_iff in J. destruct J as (j' & E & J). cbn in E. injection E as <- <-. apply filter_In in J. destruct J as (_ & J).
    exists z. split; auto. apply Nat.ltb_lt. auto.
  - intros (z & E & J). assert (I : In (a, j) (filter (of_array a) (cells sizes))).
    { rewrite (cells_of _ _ _ E). apply in_map. apply in_seq. lia. }
    apply filter_In in I. tauto.
Qed.
Lemma nodup_parts : forall l, (forall a, NoDup (filter (of_array a) l)) -> NoDup l.
Proof.
  induction l as [|(a, j) l IH]; intros H; [constructor|]. pose proof (H a) as HA. cbn [filter] in HA. unfold of_array at 1 in HA. cbn [fst] in HA. rewrite Nat.eqb_refl in HA. constructor.
  - intros I. inversion HA; subst. apply H2. apply filter_In. split; auto. unfold of_array. cbn. apply Nat.eqb_refl.
  - apply IH. intros b. specialize (H b). cbn [filter] in H. destruct (of_array b (a, j)); [inversion H; assumption|assumption].
Qed.
Lemma nodup_cells : forall sizes, NoDup (cells sizes).
Proof.
  intros sizes. apply nodup_parts. intros a. destruct (nth_error sizes a) as [z|] eqn:E.
  - rewrite (cells_of _ _ _ E). apply FinFun.Injective_map_NoDup; [intros x y X; injection X; auto|apply seq_NoDup].
  - rewrite filter_none; [constructor|]. intros (a', j) I. apply in_cells in I. destruct I as (z & E' & _). unfold of_array. cbn. apply Nat.eqb_neq. intros ->. congruence.
Qed.

(** The table after committing a list of cells *)
Lemma commit_vbls : forall l T, vt_vbls (fold_left commit l T) = vt_vbls T ++ l.
Proof. induction l as [|(a, j) l IH]; intros T; cbn [fold_left]; [rewrite app_nil_r; auto|]. rewrite IH. cbn. rewrite <- app_assoc. auto. Qed.
Definition shape (T : vtable) (sizes : list nat) : Prop := map (@length nat) (vt_membs T) = sizes.
Lemma commit_shape : forall T sizes aj, shape T sizes -> shape (commit T aj) sizes.
Proof.
  intros T sizes (a, j) S. unfold shape in *. cbn. rewrite <- S. clear S. apply (list_ext_nth _ _ _ 0).
  - rewrite !map_length. apply upd_length.
  - intros i _. assert (M : forall (l : list (list nat)) i, nth i (map (@length nat) l) 0 = length (nth i l [])) by (intros l; induction l as [|x l IH]; intros [|n]; cbn; auto).
    rewrite !M. rewrite nth_upd. destruct (Nat.eqb_spec i a) as [->|NE]; cbn [andb]; auto. destruct (a <? length (vt_membs T)); auto. apply upd_length.
Qed.

Lemma commit_membs : forall l T sizes, shape T sizes -> NoDup (vt_vbls T ++ l) ->
  (forall a j, In (a, j) (vt_vbls T ++ l) -> exists z, nth_error sizes a = Some z /\ j < z) ->
  (forall v a j, nth_error (vt_vbls T) v = Some (a, j) -> nth j (nth a (vt_membs T) []) 0 = v) ->
  shape (fold_left commit l T) sizes /\
  forall v a j, nth_error (vt_vbls T ++ l) v = Some (a, j) -> nth j (nth a (vt_membs (fold_left commit l T)) []) 0 = v.
Proof.
  induction l as [|(a, j) l IH]; intros T sizes S N V H; cbn [fold_left].
  - rewrite app_nil_r. auto.
  - assert (E : vt_vbls (commit T (a, j)) ++ l = vt_vbls T ++ (a, j) :: l) by (cbn; rewrite <- app_assoc; auto).
    rewrite <- E in *. apply IH; auto.
    + apply commit_shape. auto.
    + intros v b i X. cbn in X.
      assert (L : forall b z, nth_error sizes b = Some z -> b < length (vt_membs T) /\ length (nth b (vt_membs T) []) = z).
      { intros b' z X'. unfold shape in S. rewrite <- S in X'. rewrite nth_error_map in X'. destruct (nth_error (vt_membs T) b') as [q|] eqn:Q; [|discriminate X']. cbn in X'. injection X' as <-.
        split; [apply nth_error_Some; congruence|]. rewrite (nth_error_nth _ _ _ Q). auto. }
      destruct (V a j) as (z & Z1 & Z2). { rewrite E. apply in_or_app. right. left. auto. } destruct (L _ _ Z1) as (L1 & L2).
      cbn [commit commit_variable vt_membs fst snd].
      destruct (Nat.lt_ge_cases v (length (vt_vbls T))) as [LT|GE].
      * rewrite nth_error_app1 in X by auto. specialize (H _ _ _ X).
        assert (NE : (b, i) <> (a, j)).
        { intros Q. rewrite E in N. apply NoDup_remove_2 in N. apply N. apply in_or_app. left. rewrite <- Q. apply (nth_error_In _ _ X). }
        rewrite nth_upd. destruct (Nat.eqb_spec b a) as [->|NB]; cbn [andb]; auto. apply Nat.ltb_lt in L1. rewrite L1.
        rewrite nth_upd_other; [exact H|]. intros ->. apply NE. reflexivity.
      * rewrite nth_error_app2 in X by auto. destruct (v - length (vt_vbls T)) as [|q] eqn:Q; cbn in X; [|destruct q; discriminate X]. injection X as <- <-.
        rewrite nth_upd_same by auto. rewrite nth_upd_same by lia. lia.
Qed.

Lemma table_spec : forall sizes, let T := commit_variables sizes in
  vt_vbls T = cells sizes /\ shape T sizes /\ forall v a j, nth_error (cells sizes) v = Some (a, j) -> nth j (nth a (vt_membs T) []) 0 = v.
Proof.
  intros sizes T. unfold T. rewrite commit_all. split; [apply commit_vbls|].
  apply (commit_membs (cells sizes) (mkVtable [] (map (repeat 0) sizes)) sizes); cbn.
  - unfold shape. cbn. rewrite map_map. rewrite <- (map_id sizes) at 2. apply map_ext. intros n. apply repeat_length.
  - apply nodup_cells.
  - intros a j. apply in_cells.
  - intros [|v] a j X; discriminate X.
Qed.
(** The variable of a cell *)
Definition place (sizes : list nat) (a j : nat) : nat := nth j (nth a (vt_membs (commit_variables sizes)) []) 0.
Lemma place_spec : forall sizes a z j, nth_error sizes a = Some z -> j < z -> nth_error (cells sizes) (place sizes a j) = Some (a, j).
Proof.
  intros sizes a z j E L. destruct (table_spec sizes) as (_ & _ & H). assert (I : In (a, j) (cells sizes)) by (apply in_cells; eauto).
  apply In_nth_error in I. destruct I as (v & X). pose proof (H v a j X) as H'. unfold place. rewrite H'. auto.
Qed.
Lemma membs_places : forall sizes a z, nth_error sizes a = Some z -> nth_error (vt_membs (commit_variables sizes)) a = Some (map (place sizes a) (seq 0 z)).
Proof.
  intros sizes a z E. destruct (table_spec sizes) as (_ & S & _). unfold shape in S.
  assert (X : nth_error (map (@length nat) (vt_membs (commit_variables sizes))) a = Some z) by (rewrite S; auto).
  rewrite nth_error_map in X. destruct (nth_error (vt_membs (commit_variables sizes)) a) as [q|] eqn:Q; [|discriminate X]. cbn in X. injection X as <-. f_equal.
  unfold place. rewrite (nth_error_nth _ _ _ Q). clear. induction q as [|x q IH]; cbn; auto. rewrite <- seq_shift, map_map. f_equal. auto.
Qed.
(** In an array the variables are in order. *)
Lemma filter_order : forall A (p : A -> bool) l x y i j, NoDup l -> nth_error l i = Some x -> nth_error l j = Some y -> i < j -> p x = true -> p y = true ->
  exists i' j', nth_error (filter p l) i' = Some x /\ nth_error (filter p l) j' = Some y /\ i' < j'.
Proof.
  intros A p. induction l as [|a l IH]; intros x y i j N X Y L PX PY; [destruct i; discriminate|]. inversion N; subst. destruct j as [|j]; [lia|]. cbn in Y. destruct i as [|i].
  - cbn in X. injection X as ->. cbn. rewrite PX. assert (I : In y (filter p l)) by (apply filter_In; split; auto; apply (nth_error_In _ _ Y)).
    apply In_nth_error in I. destruct I as (q & Q). exists 0, (S q). cbn. repeat split; auto. lia.
  - cbn in X. destruct (IH x y i j H2 X Y) as (i' & j' & I & J & K); auto; [lia|]. cbn. destruct (p a); [exists (S i'), (S j')|exists i', j']; cbn; repeat split; auto; lia.
Qed.
Lemma place_order : forall sizes a z j j', nth_error sizes a = Some z -> j' < z -> j < j' -> place sizes a j < place sizes a j'.
Proof.
  intros sizes a z j j' E L LT. assert (L0 : j < z) by lia. pose proof (place_spec _ _ _ _ E L0) as X. pose proof (place_spec _ _ _ _ E L) as Y.
  destruct (Nat.lt_trichotomy (place sizes a j) (place sizes a j')) as [H|[H|H]]; auto; exfalso.
  - rewrite H in X. rewrite X in Y. injection Y as ->. lia.
  - destruct (filter_order _ (of_array a) _ _ _ _ _ (nodup_cells sizes) Y X H) as (p & q & P & Q & PQ); try (unfold of_array; cbn; apply Nat.eqb_refl).
    rewrite (cells_of _ _ _ E) in P, Q. rewrite nth_error_map in P, Q.
    assert (S : forall n k w, nth_error (seq 0 n) k = Some w -> w = k).
    { intros n k w W. assert (k < n) by (rewrite <- (seq_length n 0); apply nth_error_Some; congruence). rewrite (nth_error_nth' _ 0) in W by (rewrite seq_length; auto). rewrite seq_nth in W by auto. injection W as <-. auto. }
    destruct (nth_error (seq 0 z) p) as [u|] eqn:U; [|discriminate P]. destruct (nth_error (seq 0 z) q) as [w|] eqn:W; [|discriminate Q]. cbn in P, Q.
    apply S in U. apply S in W. injection P as P. injection Q as Q. lia.
Qed.
