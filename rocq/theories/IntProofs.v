(** Integer expressions: the tables stand for functions of the state. *)
From Coq Require Import List Arith Bool ZArith Lia.
From Verif Require Import FinLib Radix FmlaModel FmlaSpec FmlaProofs FmlaProofs2 FmlaProofs3 FmlaProofs4 FmlaProps
  GivenProps IntModel IntSpec.
Import ListNotations.

(** ** Lists *)
Lemma add_domain_length : forall n l, length (add_domain n l) = length l * n.
Proof. induction l as [|x l IH]; cbn; auto. rewrite app_length, repeat_length. unfold add_domain in IH. lia. Qed.
Lemma add_domain_nth : forall n l i r, r < n -> nth (i * n + r) (add_domain n l) 0%Z = nth i l 0%Z.
Proof.
  induction l as [|x l IH]; intros i r R.
  - cbn. destruct (i * n + r), i; auto.
  - cbn [add_domain flat_map]. destruct i as [|i].
    + cbn [Nat.mul Nat.add nth]. rewrite app_nth1 by (rewrite repeat_length; auto). apply (nth_repeat_lt 0%Z) || idtac.
      clear IH. revert r R. induction n as [|n IHn]; intros r R; [lia|]. cbn. destruct r; auto. apply IHn. lia.
    + cbn [nth]. rewrite app_nth2; rewrite repeat_length; [|lia]. replace (S i * n + r - n) with (i * n + r) by lia. apply IH. auto.
Qed.
Lemma index_snoc : forall st ds x d, length st = length ds -> index_of_state (st ++ [x]) (ds ++ [d]) = index_of_state st ds * d + x.
Proof.
  induction st as [|y st IH]; intros [|e ds] x d L; cbn [length app index_of_state prod] in *; try lia.
  rewrite IH by lia. assert (P : prod (ds ++ [d]) = prod ds * d).
  { clear. induction ds as [|e ds IH]; cbn [app prod]; [lia|rewrite IH; lia]. }
  rewrite P. lia.
Qed.
Lemma prod_snoc : forall ds d, prod (ds ++ [d]) = prod ds * d.
Proof. induction ds as [|e ds IH]; intros d; cbn [app prod]; [lia|rewrite IH; lia]. Qed.
Lemma nth_map0 : forall (f : nat -> nat) l i, i < length l -> nth i (map f l) 0 = f (nth i l 0).
Proof. intros f l i L. rewrite (nth_indep _ 0 (f 0)) by (rewrite map_length; auto). apply map_nth. Qed.
Lemma F2_length : forall (l m : list nat), Forall2 lt l m -> length l = length m.
Proof. induction 1; cbn; auto. Qed.
Lemma NoDup_snoc : forall (l : list nat) x, NoDup l -> ~ In x l -> NoDup (l ++ [x]).
Proof.
  induction l as [|y l IH]; intros x N NI; cbn; [constructor; auto; constructor|]. inversion N; subst. constructor.
  - intros H. apply in_app_or in H. destruct H as [H|[->|[]]]; [auto|]. apply NI. cbn. auto.
  - apply IH; auto. intros H. apply NI. cbn. auto.
Qed.
Lemma position_some : forall l v j, position v l = Some j -> j < length l /\ nth j l 0 = v.
Proof.
  induction l as [|y l IH]; intros v j E; cbn in *; [discriminate|]. destruct (Nat.eqb_spec v y) as [->|].
  - injection E as <-. split; [lia|auto].
  - destruct (position v l) as [m|] eqn:D; [|discriminate]. cbn in E. injection E as <-. destruct (IH v m D). split; [lia|auto].
Qed.
Lemma position_none : forall l v, position v l = None -> ~ In v l.
Proof.
  induction l as [|y l IH]; intros v E; cbn in *; [auto|]. destruct (Nat.eqb_spec v y) as [|NE]; [discriminate|].
  destruct (position v l) as [m|] eqn:D; [discriminate|]. intros [X|H]; [auto|]. exact (IH v D H).
Qed.
Lemma all_some_map : forall (f : nat -> option Z) l r, all_some (map f l) = Some r ->
  length r = length l /\ forall i, i < length l -> f (nth i l 0) = Some (nth i r 0%Z).
Proof.
  induction l as [|x l IH]; intros r E; cbn in *; [injection E as <-; split; auto; intros; lia|].
  destruct (f x) as [y|] eqn:D; [|discriminate]. destruct (all_some (map f l)) as [r'|] eqn:A; [|discriminate].
  injection E as <-. destruct (IH r' eq_refl) as (L & H). cbn. split; [auto|]. intros [|i] Hi; auto. apply H. lia.
Qed.
Lemma all_some_none : forall (f : nat -> option Z) l, all_some (map f l) = None -> exists x, In x l /\ f x = None.
Proof.
  induction l as [|x l IH]; intros E; cbn in *; [discriminate|]. destruct (f x) as [y|] eqn:D; [|eauto].
  destruct (all_some (map f l)) as [r'|] eqn:A; [discriminate|]. destruct IH as (z & Z1 & Z2); auto. eauto.
Qed.

Section Int.
Variable ds : list nat.
Hypothesis INH : inhabited ds.
Notation ok := (FmlaSpec.ok ds).
Notation dom := (fun v => nth v ds 0).

Lemma some_state : exists s, ok s.
Proof. exists (map (fun _ => 0) ds). unfold FmlaSpec.ok. clear -INH. induction INH; cbn; constructor; auto. Qed.

Lemma vals_ok : forall x s, table_ok ds x -> ok s -> Forall2 lt (map (fun v => nth v s 0) (i_vbls x)) (i_doms x).
Proof.
  intros x s [K _ D _] S. rewrite D. clear D. induction (i_vbls x) as [|v l IH]; cbn; constructor; inversion K; subst; auto.
  apply ok_nth; auto.
Qed.
Lemma entry_lt : forall x s, table_ok ds x -> ok s -> index_of_state (map (fun v => nth v s 0) (i_vbls x)) (i_doms x) < length (i_map x).
Proof. intros x s X S. rewrite (t_size _ _ X). apply index_lt. apply vals_ok; auto. Qed.

(** Every index of a table is met in some state. *)
Lemma met : forall x idx, table_ok ds x -> idx < length (i_map x) -> exists s, ok s /\
  map (fun v => nth v s 0) (i_vbls x) = state_of_index idx (i_doms x) /\
  index_of_state (map (fun v => nth v s 0) (i_vbls x)) (i_doms x) = idx.
Proof.
  intros x idx X L. rewrite (t_size _ _ X) in L. destruct (state_of_index_spec (i_doms x) idx L) as (F & E).
  assert (LL : length (state_of_index idx (i_doms x)) = length (i_vbls x)).
  { rewrite (F2_length _ _ F), (t_doms _ _ X), map_length. auto. }
  destruct some_state as (s0 & S0).
  destruct (with_values ds (i_vbls x) (fun i => nth i (state_of_index idx (i_doms x)) 0) s0 S0 (t_once _ _ X) (t_known _ _ X)) as (s & S & H).
  - intros i Hi. apply Forall2_lt_nth in F. destruct F as (_ & F). specialize (F i). rewrite (t_doms _ _ X), map_length in F. specialize (F Hi).
    rewrite nth_map0 in F by auto. rewrite (t_doms _ _ X). exact F.
  - exists s. assert (M : map (fun v => nth v s 0) (i_vbls x) = state_of_index idx (i_doms x)).
    { apply (nth_ext _ _ 0 0); [rewrite map_length; auto|]. intros i Hi. rewrite map_length in Hi.
      rewrite nth_map0 by auto. auto. }
    split; auto. split; auto. rewrite M. auto.
Qed.

(** ** Adding the variables of one table to another *)
Lemma extend : forall a v, table_ok ds a -> v < length ds -> ~ In v (i_vbls a) ->
  let a' := mkIpf (i_vbls a ++ [v]) (i_doms a ++ [nth v ds 0]) (add_domain (nth v ds 0) (i_map a)) in
  table_ok ds a' /\ forall s, ok s -> entry a' s = entry a s.
Proof.
  intros a v A V NI a'. split.
  - destruct A as [K O D Z]. split; cbn.
    + apply Forall_app. auto.
    + apply NoDup_snoc; auto.
    + rewrite D, map_app. auto.
    + rewrite add_domain_length, prod_snoc, Z. auto.
  - intros s S. unfold entry. cbn [a' i_vbls i_doms i_map]. rewrite map_app. cbn [map].
    rewrite index_snoc; [|rewrite map_length, (t_doms _ _ A), map_length; auto]. apply add_domain_nth. apply ok_nth; auto.
Qed.

Lemma merge_spec : forall bv a, table_ok ds a -> Forall (fun v => v < length ds) bv ->
  let r := merge_vbls bv (map dom bv) a in
  table_ok ds (fst r) /\ (forall s, ok s -> entry (fst r) s = entry a s) /\ length (snd r) = length bv /\
  (forall j, j < length bv -> nth j (snd r) 0 < length (i_vbls (fst r)) /\ nth (nth j (snd r) 0) (i_vbls (fst r)) 0 = nth j bv 0) /\
  (exists tl, i_vbls (fst r) = i_vbls a ++ tl).
Proof.
  induction bv as [|v bv IH]; intros a A W; cbn [map merge_vbls].
  - cbn. split; auto. split; auto. split; auto. split; [intros; lia|]. exists []. rewrite app_nil_r. auto.
  - inversion W as [|? ? V W']; subst. destruct (position v (i_vbls a)) as [p|] eqn:P.
    + destruct (IH a A W') as (I1 & I2 & I3 & I4 & (tl & I5)). destruct (merge_vbls bv (map dom bv) a) as (a', m). cbn [fst snd] in *.
      split; auto. split; auto. split; [cbn; lia|]. split; [|exists tl; auto]. intros [|j] Hj; cbn [nth length] in *.
      * apply position_some in P. rewrite I5, app_length. split; [lia|]. rewrite app_nth1 by lia. tauto.
      * apply I4. lia.
    + apply position_none in P. destruct (extend a v A V P) as (E1 & E2).
      destruct (IH _ E1 W') as (I1 & I2 & I3 & I4 & (tl & I5)).
      destruct (merge_vbls bv (map dom bv) _) as (a', m). cbn [fst snd i_vbls] in *.
      split; auto. split; [intros s S; rewrite I2, E2; auto|]. split; [cbn; lia|]. split; [|exists (v :: tl); rewrite I5, <- app_assoc; auto].
      intros [|j] Hj; cbn [nth length] in *.
      * rewrite I5, !app_length. cbn [length]. split; [lia|]. rewrite <- app_assoc. rewrite app_nth2 by lia. rewrite Nat.sub_diag. reflexivity.
      * apply I4. lia.
Qed.

(** Tables that represent something are not ranges. *)
Lemma size_pos : forall x, table_ok ds x -> 0 < length (i_map x).
Proof. intros x X. destruct some_state as (s & S). pose proof (entry_lt x s X S). lia. Qed.

Lemma init_spec : forall a b, table_ok ds a -> table_ok ds b -> exists a' m, intmap_init_op a b = Some (a', m) /\
  table_ok ds a' /\ (forall s, ok s -> entry a' s = entry a s) /\
  (forall s, ok s -> coerce_lookup a' b (index_of_state (map (fun v => nth v s 0) (i_vbls a')) (i_doms a')) m = entry b s) /\
  (length (i_vbls a') = 0 -> i_doms a' = []).
Proof.
  intros a b A B. unfold intmap_init_op. pose proof (size_pos a A) as PA. pose proof (size_pos b B) as PB.
  destruct (Nat.eqb_spec (length (i_map a)) 0); [lia|]. destruct (Nat.eqb_spec (length (i_map b)) 0); [lia|]. cbn [orb].
  assert (LA : length (i_vbls a) = length (i_doms a)) by (rewrite (t_doms _ _ A), map_length; auto).
  assert (LB : length (i_vbls b) = length (i_doms b)) by (rewrite (t_doms _ _ B), map_length; auto).
  destruct ((length (i_vbls a) =? 0) && (length (i_vbls b) =? 0)) eqn:C.
  - apply andb_true_iff in C. destruct C as (C1 & C2). apply Nat.eqb_eq in C1, C2.
    assert (VA : i_vbls a = []) by (destruct (i_vbls a); auto; discriminate). assert (VB : i_vbls b = []) by (destruct (i_vbls b); auto; discriminate).
    assert (DA : i_doms a = []) by (rewrite (t_doms _ _ A), VA; auto). assert (DB : i_doms b = []) by (rewrite (t_doms _ _ B), VB; auto).
    assert (SA : length (i_map a) = 1) by (rewrite (t_size _ _ A), DA; auto). assert (SB : length (i_map b) = 1) by (rewrite (t_size _ _ B), DB; auto).
    destruct (i_map a) as [|x [|? ?]] eqn:MA; try discriminate. destruct (i_map b) as [|y [|? ?]] eqn:MB; try discriminate.
    rewrite VA, DA, DB. cbn. eexists _, _. split; [reflexivity|]. split; [|split; [|split]].
    + split; cbn; auto. constructor.
    + intros s S. unfold entry. cbn [i_vbls i_doms i_map map index_of_state nth]. rewrite VA, DA, MA. reflexivity.
    + intros s S. unfold coerce_lookup, entry. cbn [i_vbls i_doms map index_of_state length Nat.eqb]. rewrite VB, DB, MB. reflexivity.
    + auto.
  - rewrite LA, LB, !Nat.eqb_refl. cbn [andb].
    pose proof (merge_spec (i_vbls b) a A (t_known _ _ B)) as M. rewrite <- (t_doms _ _ B) in M.
    destruct (merge_vbls (i_vbls b) (i_doms b) a) as (a', m). cbn [fst snd] in M. destruct M as (M1 & M2 & M3 & M4 & (tl & M5)).
    exists a', m. split; auto. split; auto. split; auto. split.
    + intros s S. unfold coerce_lookup.
      assert (NE : length (i_vbls a') <> 0).
      { destruct (Nat.eq_dec (length (i_vbls b)) 0) as [Z|Z].
        - rewrite M5, app_length. rewrite Z in C. rewrite andb_true_r in C. apply Nat.eqb_neq in C. lia.
        - destruct (M4 0) as (L & _); lia. }
      destruct (Nat.eqb_spec (length (i_vbls a')) 0); [contradiction|]. rewrite state_of_index_of_state by (apply vals_ok; auto).
      unfold entry. f_equal. f_equal. apply (nth_ext _ _ 0 0); [rewrite !map_length; auto|]. intros j Hj. rewrite map_length in Hj.
      set (g := map (fun v => nth v s 0) (i_vbls a')).
      destruct (M4 j) as (L & E); [lia|]. rewrite !nth_map0 by lia. unfold g. rewrite nth_map0 by lia. rewrite E. auto.
    + intros Z. rewrite (t_doms _ _ M1). destruct (i_vbls a'); auto. discriminate.
Qed.

(** ** Operations *)
Lemma of_vbl_table : forall v, v < length ds -> table_ok ds (of_vbl ds v) /\ forall s, ok s -> entry (of_vbl ds v) s = Z.of_nat (nth v s 0).
Proof.
  intros v V. split.
  - split; cbn [of_vbl i_vbls i_doms i_map map prod]; auto.
    + constructor; [intros []|constructor].
    + rewrite map_length, seq_length. lia.
  - intros s S. unfold entry. cbn [of_vbl i_vbls i_doms i_map map index_of_state prod]. pose proof (ok_nth ds s v S V) as L.
    rewrite Nat.mul_1_r, Nat.add_0_r. rewrite (nth_indep _ 0%Z (Z.of_nat 0)) by (rewrite map_length, seq_length; auto).
    rewrite map_nth, seq_nth by auto. reflexivity.
Qed.
Lemma of_int_table : forall z, table_ok ds (of_int z) /\ forall s, entry (of_int z) s = z.
Proof. intros z. split; [|reflexivity]. split; cbn; auto. constructor. Qed.
Lemma negate_table : forall a, table_ok ds a -> table_ok ds (negate a) /\ forall s, ok s -> entry (negate a) s = (- entry a s)%Z.
Proof.
  intros a A. split.
  - destruct A as [K O D Z]. split; cbn; auto. rewrite map_length. auto.
  - intros s S. unfold entry. cbn [negate i_vbls i_doms i_map].
    rewrite (nth_indep _ 0%Z (- 0)%Z) by (rewrite map_length; apply entry_lt; auto). rewrite map_nth. auto.
Qed.

Lemma binop_some : forall a b op c, table_ok ds a -> table_ok ds b -> defeq_binop a b op = Some c ->
  table_ok ds c /\ forall s, ok s -> op_value op (entry a s) (entry b s) = Some (entry c s).
Proof.
  intros a b op c A B E. unfold defeq_binop in E. destruct (init_spec a b A B) as (a' & m & I & T & EA & EB & _). rewrite I in E.
  destruct (all_some _) as [l|] eqn:D; [|discriminate]. cbn in E. injection E as <-. apply all_some_map in D. rewrite seq_length in D. destruct D as (L & H). split.
  - destruct T as [K O D Z]. split; cbn; auto. lia.
  - intros s S. pose proof (entry_lt a' s T S) as LT. specialize (H _ LT). rewrite seq_nth in H by auto. cbn [Nat.add] in H.
    rewrite EB in H by auto. rewrite <- EA by auto. exact H.
Qed.
Lemma binop_none : forall a b op, table_ok ds a -> table_ok ds b -> defeq_binop a b op = None ->
  exists s, ok s /\ op_value op (entry a s) (entry b s) = None.
Proof.
  intros a b op A B E. unfold defeq_binop in E. destruct (init_spec a b A B) as (a' & m & I & T & EA & EB & _). rewrite I in E.
  destruct (all_some _) as [l|] eqn:D; [discriminate|]. apply all_some_none in D. destruct D as (idx & Hi & N).
  apply in_seq in Hi. destruct (met a' idx T) as (s & S & _ & M); [lia|]. exists s. split; auto. rewrite <- EA, <- EB by auto. unfold entry at 1. rewrite M. exact N.
Qed.

(** ** Comparisons *)
Lemma fold_or : forall (c : nat -> bool) (g : nat -> fmla) l d e,
  FmlaModel.eval (fold_left (fun disj i => if c i then or_PFmla disj (g i) else disj) l d) e =
  FmlaModel.eval d e || existsb (fun i => c i && FmlaModel.eval (g i) e) l.
Proof.
  induction l as [|x l IH]; intros d e; cbn; [rewrite orb_false_r; auto|]. rewrite IH. destruct (c x); cbn; auto.
  rewrite eval_or, orb_assoc. auto.
Qed.

Lemma cmp_spec : forall a b c_lt c_eq c_gt, table_ok ds a -> table_ok ds b -> exists pf, cmp ds a b c_lt c_eq c_gt = Some pf /\
  forall x i s, ok x -> ok i -> ok s -> (meaning pf x i s <->
    (c_lt = true /\ (entry a s < entry b s)%Z) \/ (c_eq = true /\ entry a s = entry b s) \/ (c_gt = true /\ (entry b s < entry a s)%Z)).
Proof.
  intros a b lt eq gt A B. unfold cmp.
  assert (C : (length (i_vbls a) =? 0) && (length (i_vbls b) =? 0) && negb ((length (i_map a) =? 1) && (length (i_map b) =? 1)) = false).
  { destruct (i_vbls a) eqn:VA; [|reflexivity]. destruct (i_vbls b) eqn:VB; [|reflexivity]. cbn.
    rewrite (t_size _ _ A), (t_size _ _ B), (t_doms _ _ A), (t_doms _ _ B), VA, VB. reflexivity. }
  rewrite C. destruct (init_spec a b A B) as (a' & m & I & T & EA & EB & ZD). rewrite I. eexists. split; [reflexivity|].
  intros x i s X XI S. unfold meaning.
  rewrite (fold_or (fun idx => (lt && (nth idx (i_map a') 0%Z <? coerce_lookup a' b idx m)%Z)
      || (eq && (nth idx (i_map a') 0%Z =? coerce_lookup a' b idx m)%Z) || (gt && (coerce_lookup a' b idx m <? nth idx (i_map a') 0%Z)%Z))).
  cbn [FmlaModel.eval orb]. rewrite existsb_exists.
  set (tst := fun y z => (lt && (y <? z)%Z) || (eq && (y =? z)%Z) || (gt && (z <? y)%Z)).
  assert (TST : forall y z, tst y z = true <-> (lt = true /\ (y < z)%Z) \/ (eq = true /\ y = z) \/ (gt = true /\ (z < y)%Z)).
  { intros y z. unfold tst. rewrite !orb_true_iff, !andb_true_iff, !Z.ltb_lt, Z.eqb_eq. tauto. }
  rewrite <- TST.
  assert (ST : forall idx, idx < length (i_map a') ->
     (FmlaModel.eval (of_state ds (if length (i_vbls a') =? 0 then [] else state_of_index idx (i_doms a')) (i_vbls a')) (join x i s) = true <->
      index_of_state (map (fun v => nth v s 0) (i_vbls a')) (i_doms a') = idx)).
  { intros idx L. destruct (met a' idx T L) as (u & U & M1 & M2).
    assert (SE : (if length (i_vbls a') =? 0 then [] else state_of_index idx (i_doms a')) = state_of_index idx (i_doms a')).
    { destruct (Nat.eqb_spec (length (i_vbls a')) 0) as [Z|Z]; auto. rewrite ZD by auto. reflexivity. }
    assert (LL : length (state_of_index idx (i_doms a')) = length (i_vbls a')) by (rewrite <- M1, map_length; auto).
    rewrite SE. rewrite (ev_of_state ds _ _ x i s (t_known _ _ T) X XI S LL). unfold values. split.
    - intros E. rewrite E, <- M1. exact M2.
    - intros <-. rewrite state_of_index_of_state by (apply vals_ok; auto). reflexivity. }
  split.
  - intros (idx & Hi & H). apply in_seq in Hi. apply andb_true_iff in H. destruct H as (H1 & H2). apply ST in H2; [|lia]. subst idx.
    rewrite EB in H1 by auto. fold (entry a' s) in H1. rewrite EA in H1 by auto. exact H1.
  - intros H. pose proof (entry_lt a' s T S) as L. exists (index_of_state (map (fun v => nth v s 0) (i_vbls a')) (i_doms a')).
    split; [apply in_seq; lia|]. apply andb_true_iff. split; [|apply ST; auto]. rewrite EB by auto. fold (entry a' s). rewrite EA by auto. exact H.
Qed.

(** ** Inverse maps *)
Fixpoint sorted (m : inverse) : Prop :=
  match m with [] => True | (k, _) :: m' => (forall k' l', In (k', l') m' -> (k < k')%Z) /\ sorted m' end.
Lemma ins_in : forall m k i k' l', In (k', l') (ins k i m) -> k' = k \/ exists l, In (k', l) m.
Proof.
  induction m as [|(q, lq) m IH]; intros k i k' l' H; cbn in *.
  - destruct H as [H|[]]. injection H as <- <-. auto.
  - destruct (k <? q)%Z; [|destruct (Z.eqb_spec k q) as [->|]].
    + destruct H as [H|H]; [injection H as <- <-; auto|right; eauto].
    + destruct H as [H|H]; [injection H as <- <-; auto|right; eauto].
    + destruct H as [H|H]; [injection H as <- <-; right; eauto|]. apply IH in H. destruct H as [->|(l & H)]; eauto.
Qed.
Lemma ins_sorted : forall m k i, sorted m -> sorted (ins k i m).
Proof.
  induction m as [|(q, lq) m IH]; intros k i S; cbn in *.
  - split; auto. intros ? ? [].
  - destruct S as (S1 & S2). destruct (Z.ltb_spec k q); [|destruct (Z.eqb_spec k q) as [->|]]; cbn.
    + split; [|auto]. intros k' l' [E|H']; [injection E as <- <-; auto|]. specialize (S1 _ _ H'). lia.
    + auto.
    + split; [|auto]. intros k' l' H'. apply ins_in in H'. destruct H' as [->|(l & H')]; [lia|eauto].
Qed.
Lemma ins_spec : forall m k i x j, sorted m ->
  ((exists l, In (x, l) (ins k i m) /\ In j l) <-> (exists l, In (x, l) m /\ In j l) \/ (x = k /\ j = i)).
Proof.
  induction m as [|(q, lq) m IH]; intros k i x j S; cbn [ins].
  - split.
    + intros (l & [E|[]] & H). injection E as <- <-. destruct H as [<-|[]]. auto.
    + intros [(l & [] & _)|(-> & ->)]. exists [i]. cbn. auto.
  - destruct S as (S1 & S2). destruct (Z.ltb_spec k q); [|destruct (Z.eqb_spec k q) as [->|NE]].
    + split.
      * intros (l & [E|H'] & H2); [injection E as <- <-; destruct H2 as [<-|[]]; auto|left; eauto].
      * intros [(l & H' & H2)|(-> & ->)]; [exists l; cbn; auto|exists [i]; cbn; auto].
    + split.
      * intros (l & [E|H'] & H2).
        -- injection E as <- <-. apply in_app_or in H2. destruct H2 as [H2|[<-|[]]]; [left; exists lq; cbn; auto|auto].
        -- left. exists l. cbn. auto.
      * intros [(l & [E|H'] & H2)|(-> & ->)].
        -- injection E as <- <-. exists (lq ++ [i]). split; [cbn; auto|]. apply in_or_app. auto.
        -- exists l. cbn. auto.
        -- exists (lq ++ [i]). split; [cbn; auto|]. apply in_or_app. cbn. auto.
    + split.
      * intros (l & [E|H'] & H2); [injection E as <- <-; left; exists lq; cbn; auto|].
        assert (X : exists l, In (x, l) (ins k i m) /\ In j l) by eauto. apply IH in X; auto. destruct X as [(l2 & X1 & X2)|X]; [left; exists l2; cbn; auto|auto].
      * intros [(l & [E|H'] & H2)|X].
        -- injection E as <- <-. exists lq. cbn. auto.
        -- destruct (proj2 (IH k i x j S2)) as (l2 & X1 & X2); [eauto|]. exists l2. cbn. auto.
        -- destruct (proj2 (IH k i x j S2)) as (l2 & X1 & X2); [auto|]. exists l2. cbn. auto.
Qed.
Lemma inverse_spec : forall l, sorted (inverse_of l) /\ forall x j, (exists g, In (x, g) (inverse_of l) /\ In j g) <-> (j < length l /\ nth j l 0%Z = x).
Proof.
  intros l. unfold inverse_of.
  assert (H : forall n, sorted (fold_left (fun m i => ins (nth i l 0%Z) i m) (seq 0 n) []) /\
    forall x j, (exists g, In (x, g) (fold_left (fun m i => ins (nth i l 0%Z) i m) (seq 0 n) []) /\ In j g) <-> (j < n /\ nth j l 0%Z = x)).
  { induction n as [|n (IH1 & IH2)]; [cbn; split; auto; intros x j; split; [intros (g & [] & _)|lia]|].
    rewrite seq_S, fold_left_app. cbn [fold_left]. split; [apply ins_sorted; auto|]. intros x j. rewrite ins_spec by auto. rewrite IH2. cbn [Nat.add].
    split.
    - intros [(L & E)|(-> & ->)]; [split; [lia|auto]|split; [lia|auto]].
    - intros (L & E). destruct (Nat.eq_dec j n) as [->|]; [right; auto|left; split; [lia|auto]]. }
  apply H.
Qed.
Lemma inverse_nonempty_groups : forall l x g, In (x, g) (inverse_of l) -> exists j, In j g.
Proof.
  intros l. unfold inverse_of.
  assert (H : forall L m, (forall x g, In (x, g) m -> exists j, In j g) -> forall x g, In (x, g) (fold_left (fun m i => ins (nth i l 0%Z) i m) L m) -> exists j, In j g).
  { induction L as [|i L IH]; intros m M x g H; cbn in H; eauto. revert H. apply IH. clear -M. intros x g H.
    revert M x g H. induction m as [|(q, lq) m IHm]; intros M x g H; cbn in H.
    - destruct H as [E|[]]. injection E as <- <-. exists i. cbn. auto.
    - destruct (_ <? q)%Z; [|destruct (_ =? q)%Z]; cbn in H.
      + destruct H as [E|H]; [injection E as <- <-; exists i; cbn; auto|]. eapply M. cbn. eauto.
      + destruct H as [E|H]; [injection E as <- <-; exists i; apply in_or_app; cbn; auto|]. eapply M. cbn. eauto.
      + destruct H as [E|H]; [injection E as <- <-; eapply M; cbn; eauto|]. eapply IHm; [|exact H]. intros ? ? H'. eapply M. cbn. eauto. }
  apply H. intros x g [].
Qed.

Lemma lower_app : forall pre m k, (forall q l, In (q, l) pre -> (q < k)%Z) -> lower_bound k (pre ++ m) = lower_bound k m.
Proof.
  induction pre as [|(q, l) pre IH]; intros m k H; cbn; auto. destruct (Z.ltb_spec q k) as [_|X].
  - apply IH. intros q' l' H'. eapply H. cbn. eauto.
  - exfalso. specialize (H q l (or_introl eq_refl)). lia.
Qed.
Lemma lower_suffix : forall m k, exists pre, m = pre ++ lower_bound k m /\ forall q l, In (q, l) pre -> (q < k)%Z.
Proof.
  induction m as [|(q, l) m IH]; intros k; cbn; [exists []; split; auto; intros ? ? []|]. destruct (Z.ltb_spec q k) as [X|_].
  - destruct (IH k) as (pre & E & H). exists ((q, l) :: pre). cbn. rewrite <- E. split; auto. intros q' l' [E'|H']; [injection E' as <- <-; auto|eauto].
  - exists []. cbn. split; auto. intros ? ? [].
Qed.
Lemma lower_shorter : forall m k, length (lower_bound k m) <= length m.
Proof. induction m as [|(q, l) m IH]; intros k; cbn; auto. destruct (q <? k)%Z; cbn; auto. Qed.

Section Loop.
Variables a b : ipf.
Variables inv_a inv_b : inverse.
Variable e : list nat.
Notation EA g := (FmlaModel.eval (either_img ds a g) e).
Notation EB g := (FmlaModel.eval (either_pre ds b g) e).
Definition meet (x y : inverse) : Prop := exists k g h, In (k, g) x /\ In (k, h) y /\ EA g = true /\ EB h = true.

Lemma loop_spec : forall fuel ita itb disj pa pb, sorted inv_a -> sorted inv_b ->
  inv_a = pa ++ ita -> inv_b = pb ++ itb -> length ita + length itb < fuel ->
  (forall q l, In (q, l) pa -> forall q' l', In (q', l') itb -> (q < q')%Z) ->
  (forall q l, In (q, l) pb -> forall q' l', In (q', l') ita -> (q < q')%Z) ->
  exists pf, img_eq_loop ds fuel a b inv_a inv_b ita itb disj = Some pf /\
    (FmlaModel.eval pf e = true <-> FmlaModel.eval disj e = true \/ meet ita itb).
Proof.
  assert (SP : forall p m, sorted (p ++ m) -> sorted m /\ forall q l q' l', In (q, l) p -> In (q', l') m -> (q < q')%Z).
  { induction p as [|(q, l) p IH]; intros m S; cbn in *; [split; auto; intros ? ? ? ? []|]. destruct S as (S1 & S2). destruct (IH m S2) as (I1 & I2).
    split; auto. intros q0 l0 q' l' [E|H] H'; [injection E as <- <-; eapply S1, in_or_app; eauto|eauto]. }
  induction fuel as [|fuel IH]; intros ita itb disj pa pb SA SB QA QB L HA HB; [lia|]. cbn [img_eq_loop].
  assert (SAi : sorted ita) by (rewrite QA in SA; apply SP in SA; tauto). assert (SBi : sorted itb) by (rewrite QB in SB; apply SP in SB; tauto).
  destruct ita as [|(ka, ga) ita]; [exists disj; split; auto; split; auto; intros [H|(k & g & h & [] & _)]; auto|].
  destruct itb as [|(kb, gb) itb]; [exists disj; split; auto; split; auto; intros [H|(k & g & h & _ & [] & _)]; auto|].
  cbn in SAi, SBi. destruct SAi as (A1 & A2), SBi as (B1 & B2).
  destruct (Z.ltb_spec ka kb) as [LT|GE]; [|destruct (Z.ltb_spec kb ka) as [LT|GE']].
  - assert (X : lower_bound kb inv_a = lower_bound kb ita).
    { rewrite QA. rewrite lower_app by (intros q l H; eapply HA; [eauto|cbn; eauto]). cbn. destruct (Z.ltb_spec ka kb); [auto|lia]. }
    rewrite X. destruct (lower_suffix ita kb) as (pre & E & P).
    destruct (IH (lower_bound kb ita) ((kb, gb) :: itb) disj (pa ++ (ka, ga) :: pre) pb) as (pf & F1 & F2); auto.
    + rewrite QA, <- app_assoc. cbn. rewrite <- E. auto.
    + cbn in *. pose proof (lower_shorter ita kb). lia.
    + intros q l H q' l' H'. apply in_app_or in H. destruct H as [H|[H|H]]; [eapply HA; eauto|injection H as <- <-|].
      * destruct H' as [H'|H']; [injection H' as <- <-; auto|]. specialize (B1 _ _ H'). lia.
      * specialize (P _ _ H). destruct H' as [H'|H']; [injection H' as <- <-; auto|]. specialize (B1 _ _ H'). lia.
    + intros q l H q' l' H'. eapply HB; [eauto|]. right. rewrite E. apply in_or_app. eauto.
    + exists pf. split; auto. rewrite F2. split.
      * intros [H|(k & g & h & H1 & H2 & H3)]; [auto|]. right. exists k, g, h. split; [right; rewrite E; apply in_or_app; auto|tauto].
      * intros [H|(k & g & h & H1 & H2 & H3)]; [auto|]. right. exists k, g, h. split; [|tauto].
        assert (KB : (kb <= k)%Z) by (destruct H2 as [H2|H2]; [injection H2 as <- <-; lia|specialize (B1 _ _ H2); lia]).
        destruct H1 as [H1|H1]; [injection H1 as <- <-; lia|]. rewrite E in H1. apply in_app_or in H1. destruct H1 as [H1|H1]; auto. specialize (P _ _ H1). lia.
  - assert (X : lower_bound ka inv_b = lower_bound ka itb).
    { rewrite QB. rewrite lower_app by (intros q l H; eapply HB; [eauto|cbn; eauto]). cbn. destruct (Z.ltb_spec kb ka); [auto|lia]. }
    rewrite X. destruct (lower_suffix itb ka) as (pre & E & P).
    destruct (IH ((ka, ga) :: ita) (lower_bound ka itb) disj pa (pb ++ (kb, gb) :: pre)) as (pf & F1 & F2); auto.
    + rewrite QB, <- app_assoc. cbn. rewrite <- E. auto.
    + cbn in *. pose proof (lower_shorter itb ka). lia.
    + intros q l H q' l' H'. eapply HA; [eauto|]. right. rewrite E. apply in_or_app. eauto.
    + intros q l H q' l' H'. apply in_app_or in H. destruct H as [H|[H|H]]; [eapply HB; eauto|injection H as <- <-|].
      * destruct H' as [H'|H']; [injection H' as <- <-; auto|]. specialize (A1 _ _ H'). lia.
      * specialize (P _ _ H). destruct H' as [H'|H']; [injection H' as <- <-; auto|]. specialize (A1 _ _ H'). lia.
    + exists pf. split; auto. rewrite F2. split.
      * intros [H|(k & g & h & H1 & H2 & H3)]; [auto|]. right. exists k, g, h. split; [auto|]. split; [right; rewrite E; apply in_or_app; auto|tauto].
      * intros [H|(k & g & h & H1 & H2 & H3)]; [auto|]. right. exists k, g, h. split; [auto|]. split; [|tauto].
        assert (KA : (ka <= k)%Z) by (destruct H1 as [H1|H1]; [injection H1 as <- <-; lia|specialize (A1 _ _ H1); lia]).
        destruct H2 as [H2|H2]; [injection H2 as <- <-; lia|]. rewrite E in H2. apply in_app_or in H2. destruct H2 as [H2|H2]; auto. specialize (P _ _ H2). lia.
  - assert (kb = ka) by lia. subst kb.
    destruct (IH ita itb (or_PFmla disj (and_PFmla (either_img ds a ga) (either_pre ds b gb))) (pa ++ [(ka, ga)]) (pb ++ [(ka, gb)])) as (pf & F1 & F2); auto.
    + rewrite <- app_assoc. auto.
    + rewrite <- app_assoc. auto.
    + cbn in L. lia.
    + intros q l H q' l' H'. apply in_app_or in H. destruct H as [H|[H|[]]]; [eapply HA; [eauto|right; eauto]|]. injection H as <- <-. eauto.
    + intros q l H q' l' H'. apply in_app_or in H. destruct H as [H|[H|[]]]; [eapply HB; [eauto|right; eauto]|]. injection H as <- <-. eauto.
    + exists pf. split; auto. rewrite F2, eval_or, eval_and, orb_true_iff, andb_true_iff. split.
      * intros [[H|(H1 & H2)]|(k & g & h & H1 & H2 & H3)]; [auto| |].
        -- right. exists ka, ga, gb. cbn. auto.
        -- right. exists k, g, h. cbn. tauto.
      * intros [H|(k & g & h & H1 & H2 & H3 & H4)]; [auto|]. destruct H1 as [H1|H1].
        -- injection H1 as <- <-. destruct H2 as [H2|H2]; [injection H2 as <-; auto|]. specialize (B1 _ _ H2). lia.
        -- destruct H2 as [H2|H2]; [injection H2 as <- <-; specialize (A1 _ _ H1); lia|]. right. exists k, g, h. auto.
Qed.
End Loop.

(** ** Assignments *)
Lemma either_eval : forall (f : nat -> fmla) idcs e,
  FmlaModel.eval (fold_left (fun d i => or_PFmla d (f i)) idcs (Cst false)) e = existsb (fun i => FmlaModel.eval (f i) e) idcs.
Proof.
  intros f idcs e. assert (H : forall l d, FmlaModel.eval (fold_left (fun d i => or_PFmla d (f i)) l d) e = FmlaModel.eval d e || existsb (fun i => FmlaModel.eval (f i) e) l).
  { induction l as [|x l IH]; intros d; cbn; [rewrite orb_false_r; auto|]. rewrite IH, eval_or, orb_assoc. auto. }
  rewrite H. reflexivity.
Qed.

Lemma mods : forall l u, ok u -> Forall (fun v => v < length ds) l ->
  map (fun vx => snd vx mod nth (fst vx) ds 0) (combine l (map (fun v => nth v u 0) l)) = map (fun v => nth v u 0) l.
Proof.
  intros l u U. induction l as [|v l IH]; intros K; auto. inversion K; subst. cbn [map combine fst snd]. rewrite IH by auto. f_equal.
  apply Nat.mod_small. apply ok_nth; auto.
Qed.
Lemma at_index : forall x idx s, table_ok ds x -> ok s -> idx < length (i_map x) ->
  (map (fun v => nth v s 0) (i_vbls x) = state_of_index idx (i_doms x) <-> index_of_state (map (fun v => nth v s 0) (i_vbls x)) (i_doms x) = idx).
Proof.
  intros x idx s X S L. split.
  - intros ->. rewrite (t_size _ _ X) in L. apply state_of_index_spec. auto.
  - intros <-. rewrite state_of_index_of_state; auto. apply vals_ok; auto.
Qed.

Lemma img_eq_spec : forall a b, table_ok ds a -> table_ok ds b -> i_vbls a <> [] -> exists pf, img_eq ds a b = Some pf /\
  forall x t s, ok x -> ok t -> ok s -> (meaning pf x t s <-> entry a t = entry b s).
Proof.
  intros a b A B NE. unfold img_eq. destruct (Nat.eqb_spec (length (i_vbls a)) 0) as [Z|_]; [destruct (i_vbls a); [contradiction|discriminate]|].
  assert (LB : length (i_vbls b) = length (i_doms b)) by (rewrite (t_doms _ _ B), map_length; auto). rewrite LB, Nat.eqb_refl. cbn [negb].
  destruct (inverse_spec (i_map a)) as (SA & IA). destruct (inverse_spec (i_map b)) as (SB & IB).
  destruct (inverse_of (i_map b)) as [|(kb, gb) ib] eqn:EB.
  { exfalso. pose proof (size_pos b B) as P. destruct (proj2 (IB (nth 0 (i_map b) 0%Z) 0)) as (g & [] & _). auto. }
  rewrite <- EB in *. set (inv_a := inverse_of (i_map a)) in *. set (inv_b := inverse_of (i_map b)) in *.
  destruct (lower_suffix inv_a kb) as (pa & QA & PA).
  assert (KB : forall q l, In (q, l) inv_b -> (kb <= q)%Z).
  { intros q l H. rewrite EB in H, SB. cbn in SB. destruct H as [H|H]; [injection H as <- <-; lia|]. destruct SB as (SB & _). specialize (SB _ _ H). lia. }
  assert (LOOP : forall e, exists pf, img_eq_loop ds (S (length inv_a + length inv_b)) a b inv_a inv_b (lower_bound kb inv_a) inv_b (Cst false) = Some pf /\
     (FmlaModel.eval pf e = true <-> FmlaModel.eval (Cst false) e = true \/ meet a b e (lower_bound kb inv_a) inv_b)).
  { intros e. apply (loop_spec a b inv_a inv_b e) with (pa := pa) (pb := []); auto.
    - pose proof (lower_shorter inv_a kb). lia.
    - intros q l H q' l' H'. specialize (PA _ _ H). specialize (KB _ _ H'). lia.
    - intros q l []. }
  destruct (LOOP []) as (pf & F & _). exists pf. split; auto. intros x t s X T S. unfold meaning.
  destruct (LOOP (join x t s)) as (pf' & F' & H). rewrite F in F'. injection F' as <-. rewrite H. clear H LOOP F.
  assert (EIMG : forall g, (forall j, In j g -> j < length (i_map a)) -> (FmlaModel.eval (either_img ds a g) (join x t s) = true <->
     In (index_of_state (map (fun v => nth v t 0) (i_vbls a)) (i_doms a)) g)).
  { intros g G. unfold either_img. rewrite (either_eval (fun i => of_img_state ds (state_of_index i (i_doms a)) (i_vbls a))), existsb_exists. split.
    - intros (i & Hi & E). specialize (G i Hi). destruct (met a i A G) as (u & U & M1 & M2).
      rewrite <- M1 in E. apply (ev_of_img_state ds) in E; auto; [|apply (t_known _ _ A)|rewrite map_length; auto].
      assert (V : values (i_vbls a) t = map (fun v => nth v u 0) (i_vbls a)).
      { rewrite E. apply mods; auto. apply (t_known _ _ A). }
      unfold values in V. rewrite V, M2. auto.
    - intros Hi. eexists. split; [exact Hi|]. rewrite state_of_index_of_state by (apply vals_ok; auto).
      apply (ev_of_img_state ds); auto; [apply (t_known _ _ A)|rewrite map_length; auto|].
      symmetry. apply mods; auto. apply (t_known _ _ A). }
  assert (EPRE : forall g, (forall j, In j g -> j < length (i_map b)) -> (FmlaModel.eval (either_pre ds b g) (join x t s) = true <->
     In (index_of_state (map (fun v => nth v s 0) (i_vbls b)) (i_doms b)) g)).
  { intros g G. unfold either_pre. rewrite (either_eval (fun i => of_state ds (state_of_index i (i_doms b)) (i_vbls b))), existsb_exists. split.
    - intros (i & Hi & E). specialize (G i Hi). destruct (met b i B G) as (u & U & M1 & M2).
      apply (ev_of_state ds) in E; auto; [|apply (t_known _ _ B)|rewrite <- M1, map_length; auto].
      unfold values in E. rewrite (proj1 (at_index b i s B S G) E). auto.
    - intros Hi. eexists. split; [exact Hi|]. rewrite state_of_index_of_state by (apply vals_ok; auto).
      apply (ev_of_state ds); auto; [apply (t_known _ _ B)|rewrite map_length; auto]. }
  assert (GA : forall k g, In (k, g) inv_a -> forall j, In j g -> j < length (i_map a) /\ nth j (i_map a) 0%Z = k) by (intros k g Hg j Hj; apply IA; eauto).
  assert (GB : forall k g, In (k, g) inv_b -> forall j, In j g -> j < length (i_map b) /\ nth j (i_map b) 0%Z = k) by (intros k g Hg j Hj; apply IB; eauto).
  split.
  - intros [H|(k & g & h & H1 & H2 & H3 & H4)]; [discriminate|].
    assert (H1' : In (k, g) inv_a) by (rewrite QA; apply in_or_app; auto).
    apply EIMG in H3; [|intros j Hj; apply (GA k g); auto]. apply EPRE in H4; [|intros j Hj; apply (GB k h); auto].
    destruct (GA k g H1' _ H3) as (_ & E1). destruct (GB k h H2 _ H4) as (_ & E2). unfold entry. congruence.
  - intros H. right. pose proof (entry_lt a t A T) as LA. pose proof (entry_lt b s B S) as LBs.
    destruct (proj2 (IA (entry a t) _) (conj LA eq_refl)) as (g & G1 & G2). destruct (proj2 (IB (entry b s) _) (conj LBs eq_refl)) as (h & H1 & H2).
    exists (entry a t), g, h. split; [|split; [congruence|split]].
    + rewrite QA in G1. apply in_app_or in G1. destruct G1 as [G1|G1]; auto. exfalso. specialize (PA _ _ G1). specialize (KB _ _ H1). lia.
    + apply EIMG; auto. intros j Hj. apply (GA (entry a t) g); auto.
    + apply EPRE; auto. intros j Hj. apply (GB (entry b s) h); auto.
Qed.
End Int.
