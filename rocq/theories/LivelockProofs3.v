(** The tile search finds every periodic block no larger than its limit. *)
From Coq Require Import List Arith Lia Bool.
From Verif Require Import FinLib UniModel UniSpec UniProofs LivelockModel LivelockSpec
  GridLivelock LiveGrid LivelockProofs LivelockProofs2.
Import ListNotations.

Lemma nth_map_seq : forall (f : nat -> nat) len i, i < len -> nth i (map f (seq 0 len)) 0 = f i.
Proof.
  intros f len i H. rewrite (nth_indep _ 0 (f 0)) by (rewrite map_length, seq_length; auto).
  rewrite map_nth, seq_nth by auto. auto.
Qed.

Lemma skipn_map_seq : forall (f : nat -> nat) len i, i <= len ->
  skipn i (map f (seq 0 len)) = map (fun j => f (i + j)) (seq 0 (len - i)).
Proof.
  intros f len i H. apply list_ext_nth with (d := 0).
  - rewrite skipn_length, !map_length, !seq_length. auto.
  - intros j J. rewrite skipn_length, map_length, seq_length in J.
    rewrite nth_skipn', !nth_map_seq by lia. auto.
Qed.

Section Fill.
Variable t : list nat.
Variable M : nat.
Hypothesis Hok : table_ok M t.
Variable X : nat -> nat -> nat.
Hypothesis XP : forall s q, table_protocol M t (X (S s) q) (X s (S q)) (X (S s) (S q)).

Lemma fill_row_grid : forall len s q,
  fill_row t M (X (S s) q) (map (fun j => X s (S q + j)) (seq 0 len)) =
  Some (map (fun j => X (S s) (S q + j)) (seq 0 len)).
Proof.
  induction len; intros s q; [reflexivity|]. cbn [seq map fill_row]. rewrite !Nat.add_0_r.
  destruct (protocol_ppg M t _ _ _ Hok (XP s q)) as (_ & _ & C & E). rewrite E.
  replace (X (S s) (S q) =? M) with false by (symmetry; apply Nat.eqb_neq; lia).
  assert (E' : forall s', map (fun j => X s' (S q + j)) (seq 1 len) = map (fun j => X s' (S (S q) + j)) (seq 0 len)).
  { intro s'. rewrite <- (seq_shift len 0), map_map. apply map_ext. intro; f_equal; lia. }
  rewrite !E', IHlen. reflexivity.
Qed.

Lemma fill_rows_grid : forall n q, (forall s, X s (q + n) = X s q) -> forall len s,
  fill_rows t M (map (fun j => X s (q + j)) (seq 0 (S n))) (map (fun i => X (S s + i) q) (seq 0 len)) =
  Some (map (fun j => X (s + len) (q + j)) (seq 0 (S n))).
Proof.
  intros n q PER. induction len; intro s.
  - cbn [seq map fill_rows]. rewrite !Nat.add_0_r. reflexivity.
  - cbn [seq map fill_rows tl]. rewrite !Nat.add_0_r.
    assert (E' : forall s', map (fun j => X s' (q + j)) (seq 1 n) = map (fun j => X s' (S q + j)) (seq 0 n)).
    { intro s'. rewrite <- (seq_shift n 0), map_map. apply map_ext. intro; f_equal; lia. }
    rewrite E', fill_row_grid.
    assert (R : X (S s) q :: map (fun j => X (S s) (S q + j)) (seq 0 n) = map (fun j => X (S s) (q + j)) (seq 0 (S n))).
    { cbn [seq map]. rewrite Nat.add_0_r, E'. auto. }
    rewrite R.
    assert (L : last (map (fun j => X (S s) (q + j)) (seq 0 (S n))) 0 = X (S s) q).
    { rewrite last_nth, map_length, seq_length, nth_map_seq by lia.
      replace (S n - 1) with n by lia. apply PER. }
    rewrite L, Nat.eqb_refl.
    replace (map (fun i => X (S s + i) q) (seq 1 len)) with (map (fun i => X (S (S s) + i) q) (seq 0 len)).
    2:{ rewrite <- (seq_shift len 0), map_map. apply map_ext. intro; f_equal; lia. }
    rewrite IHlen. replace (s + S len) with (S s + len) by lia. cbn [seq map]. rewrite Nat.add_0_r. reflexivity.
Qed.

Variable m n : nat.
Hypothesis Hm : 1 <= m.
Hypothesis Hn : 1 <= n.
Hypothesis Pm : forall s q, X (s + m) q = X s q.
Hypothesis Pn : forall s q, X s (q + n) = X s q.
Variable t0 q0 B : nat.
Hypothesis HB : B <= t0.
Hypothesis Xmin : forall s q, X t0 q0 <= X s q < M.

Lemma find_some_not_none : forall A C (f : A -> option C) l x, In x l -> f x <> None -> find_some f l <> None.
Proof.
  induction l as [|y l IH]; intros x H F; [destruct H|]. destruct H as [->|H]; cbn [find_some].
  - destruct (f x); [discriminate|congruence].
  - destruct (f y); [discriminate|]. eapply IH; eauto.
Qed.

Lemma find_block_grid : forall N, m <= N -> n <= N -> N <= B ->
  find_block t M N (tri_bot X t0 q0 N) (tri_col X t0 q0 N) <> None.
Proof.
  intros N HmN HnN HNB. unfold find_block, tri_bot, tri_col.
  apply find_some_not_none with (x := N - n); [apply in_rev; rewrite rev_involutive; apply in_seq; lia|].
  rewrite !nth_map_seq by lia.
  assert (E1 : X t0 (q0 + (N - n)) = X t0 (q0 + N)).
  { rewrite <- (Pn t0 (q0 + (N - n))). f_equal; lia. }
  rewrite E1, Nat.eqb_refl.
  apply find_some_not_none with (x := N - m); [apply in_rev; rewrite rev_involutive; apply in_seq; lia|].
  rewrite !nth_map_seq by lia.
  assert (E2 : X (t0 - N + (N - m)) (q0 + N) = X (t0 - N + N) (q0 + N)).
  { rewrite <- (Pm (t0 - N + (N - m))). f_equal; lia. }
  rewrite E2, Nat.eqb_refl.
  rewrite !skipn_map_seq by lia.
  unfold fill_livelock_ck.
  replace (S N - (N - n)) with (S n) by lia. replace (S N - (N - m)) with (S m) by lia.
  cbn [tl]. set (s := t0 - m). set (q := q0 + (N - n)).
  replace (map (fun j => X t0 (q0 + (N - n + j))) (seq 0 (S n))) with (map (fun j => X s (q + j)) (seq 0 (S n))).
  2:{ apply map_ext. intro j. rewrite <- (Pm s). f_equal; unfold s, q; lia. }
  replace (tl (map (fun j => X (t0 - N + (N - m + j)) (q0 + N)) (seq 0 (S m))))
    with (map (fun i => X (S s + i) q) (seq 0 m)).
  2:{ cbn [seq map tl]. rewrite <- (seq_shift m 0), map_map. apply map_ext. intro j.
      rewrite <- (Pn _ q). f_equal; unfold s, q; lia. }
  rewrite fill_rows_grid by (intro; apply Pn).
  replace (map (fun j => X (s + m) (q + j)) (seq 0 (S n))) with (map (fun j => X s (q + j)) (seq 0 (S n))).
  2:{ apply map_ext. intro j. symmetry; apply Pm. }
  replace (nat_list_eqb _ _) with true; [discriminate|]. symmetry; apply nat_list_eqb_eq; auto.
Qed.

Lemma diag_loop_yes : forall deeper ob oc ds d col,
  In d ds -> build_col t M d oc = Some col ->
  find_block t M (length ob) (ob ++ [nth (length ob) col 0]) col <> None \/
  is_yes (deeper (ob ++ [nth (length ob) col 0]) col) ->
  forall may, is_yes (diag_loop t M deeper ob oc ds may).
Proof.
  intros deeper ob oc ds d col Hin HBc H.
  assert (Y : forall row c, is_yes (RYes row c)) by (intros; eexists _, _; reflexivity).
  induction ds as [|d' ds IH]; intros may; [destruct Hin|]. cbn [diag_loop].
  destruct Hin as [->|Hin].
  - rewrite HBc. cbv zeta. destruct (find_block _ _ _ _ _) as [[]|]; [auto|].
    destruct H as [H|(row & c & H)]; [congruence|]. rewrite H. auto.
  - destruct (build_col t M d' oc); [|apply IH; auto]. cbv zeta.
    destruct (find_block _ _ _ (ob ++ [nth (length ob) l 0]) l) as [[]|]; [auto|].
    match goal with |- context [match deeper ?x ?y with _ => _ end] => destruct (deeper x y) end;
    [apply IH; auto | apply IH; auto | auto].
Qed.

Lemma semick_rec_grid : forall k N, N < Nat.max m n <= N + k + 1 -> Nat.max m n <= B ->
  is_yes (semick_rec t M k (tri_bot X t0 q0 N) (tri_col X t0 q0 N)).
Proof.
  assert (XP' : forall s q, s < t0 -> q < q0 + B -> t0 - B <= s ->
    table_protocol M t (X (S s) q) (X s (S q)) (X (S s) (S q))) by auto.
  induction k; intros N HN HBm; cbn [semick_rec];
  (apply diag_loop_yes with (d := X (t0 - S N) (q0 + S N)) (col := tri_col X t0 q0 (S N));
   [ apply in_seq; pose proof (Xmin (t0 - S N) (q0 + S N));
     unfold tri_bot; cbn [seq map hd]; rewrite Nat.add_0_r; lia
   | apply (tri_build t M Hok X t0 q0 B HB XP'); lia
   | ]); rewrite (tri_bot_S X t0 q0 B HB) by lia;
   replace (length (tri_bot X t0 q0 N)) with (S N) by (unfold tri_bot; rewrite map_length, seq_length; auto).
  - left. apply find_block_grid; lia.
  - destruct (Nat.eq_dec (S N) (Nat.max m n)) as [e|e].
    + left. apply find_block_grid; lia.
    + right. apply IHk; lia.
Qed.
End Fill.

Lemma semick_loop_yes : forall M k cs c t,
  (forall t', table_ok M t' -> (forall a b v, c <= a -> c <= b -> c <= v ->
      table_protocol M t a b v -> table_protocol M t' a b v) ->
      is_yes (semick_rec t' M k [c] [c])) ->
  table_ok M t ->
  (exists l1 l2, cs = l1 ++ c :: l2 /\ Forall (fun x => x < c) l1) ->
  forall may, is_yes (semick_loop M k cs t may).
Proof.
  intros M k cs c t H Hok (l1 & l2 & -> & Fl).
  assert (Y : forall row c, is_yes (RYes row c)) by (intros; eexists _, _; reflexivity).
  assert (G : forall l1 t', Forall (fun x => x < c) l1 -> table_ok M t' ->
     (forall a b v, c <= a -> c <= b -> c <= v ->
        table_protocol M t a b v -> table_protocol M t' a b v) ->
     forall may, is_yes (semick_loop M k (l1 ++ c :: l2) t' may)).
  { clear Fl l1. induction l1 as [|x l1 IH]; intros t' Fl Hok' Hsub may; cbn [app semick_loop].
    - destruct (H t' Hok' Hsub) as (row & col & E). rewrite E. auto.
    - inversion Fl; subst.
      assert (forall may, is_yes (semick_loop M k (l1 ++ c :: l2) (remove_value M x t') may)).
      { apply IH; auto using remove_value_ok. intros a b v G1 G2 G3 HP.
        apply remove_value_keep; auto; lia. }
      destruct (semick_rec t' M k [x] [x]); auto. }
  apply G; auto.
Qed.

Lemma mod_S_cases : forall s m, 1 <= m ->
  (S s mod m = S (s mod m) /\ S (s mod m) < m) \/ (S s mod m = 0 /\ S (s mod m) = m).
Proof.
  intros s m H. pose proof (Nat.mod_upper_bound s m ltac:(lia)). pose proof (Nat.div_mod s m ltac:(lia)).
  destruct (Nat.eq_dec (S (s mod m)) m) as [e|e].
  - right. split; auto. replace (S s) with (0 + S (s / m) * m) by nia. rewrite Nat.mod_add by lia. apply Nat.mod_0_l; lia.
  - left. split; [|lia]. replace (S s) with (S (s mod m) + (s / m) * m) by lia. rewrite Nat.mod_add by lia.
    apply Nat.mod_small; lia.
Qed.

Lemma livelock_semick_complete : forall limit t M row col, table_ok M t ->
  periodic_block (table_protocol M t) row col -> length row <= S limit -> length col <= S limit ->
  exists row' col', livelock_semick limit t M = RYes row' col'.
Proof.
  intros limit t M row col Hok (m & n & G & Hm & Hn & Lr & Lc & Gr & Gc & GP) HLr HLc.
  set (X := fun s q => G (s mod m) (q mod n)).
  assert (Pm : forall s q, X (s + m) q = X s q).
  { intros; unfold X. replace (s + m) with (s + 1 * m) by lia. rewrite Nat.mod_add by lia. auto. }
  assert (Pn : forall s q, X s (q + n) = X s q).
  { intros; unfold X. replace (q + n) with (q + 1 * n) by lia. rewrite Nat.mod_add by lia. auto. }
  assert (R0 : forall j, j <= n -> G m j = G 0 j) by (intros j Hj; destruct (Gr j Hj); congruence).
  assert (C0 : forall i, i <= m -> G i n = G i 0) by (intros i Hi; destruct (Gc i Hi); congruence).
  assert (XS : forall s q, X (S s) q = G (S (s mod m)) (q mod n)).
  { intros s q; unfold X. pose proof (Nat.mod_upper_bound q n ltac:(lia)).
    destruct (mod_S_cases s m Hm) as [[-> _]|[-> E]]; auto. rewrite E, R0 by lia. auto. }
  assert (XQ : forall s q, X s (S q) = G (s mod m) (S (q mod n))).
  { intros s q; unfold X. pose proof (Nat.mod_upper_bound s m ltac:(lia)).
    destruct (mod_S_cases q n Hn) as [[-> _]|[-> E]]; auto. rewrite E, C0 by lia. auto. }
  assert (XSQ : forall s q, X (S s) (S q) = G (S (s mod m)) (S (q mod n))).
  { intros s q. pose proof (Nat.mod_upper_bound s m ltac:(lia)).
    rewrite XS. destruct (mod_S_cases q n Hn) as [[-> _]|[-> E]]; auto. rewrite E, C0 by lia. auto. }
  assert (XP : forall s q, table_protocol M t (X (S s) q) (X s (S q)) (X (S s) (S q))).
  { intros s q. rewrite XSQ, XS, XQ. apply GP; apply Nat.mod_upper_bound; lia. }
  assert (XM : forall s q, X s q < M).
  { intros s q. rewrite <- Pm, <- Pn. replace (s + m) with (S (s + m - 1)) by lia.
    replace (q + n) with (S (q + n - 1)) by lia.
    destruct (table_protocol_range _ _ _ _ _ (XP (s + m - 1) (q + n - 1))) as (_ & _ & ?). auto. }
  assert (PM : forall j s q, X (s + j * m) q = X s q).
  { induction j; intros s q; [f_equal; lia|]. rewrite <- (IHj s q), <- (Pm (s + j * m)). f_equal; lia. }
  destruct (argmin (fun k => X (k / n) (k mod n)) (m * n) ltac:(nia)) as (k0 & _ & Hmin).
  set (B := Nat.max m n). set (t0 := k0 / n + B * m). set (q0 := k0 mod n).
  assert (Xmin : forall s q, X t0 q0 <= X s q < M).
  { intros s q. split; [|auto]. unfold t0. rewrite PM. unfold q0.
    pose proof (Nat.mod_upper_bound s m ltac:(lia)) as S1. pose proof (Nat.mod_upper_bound q n ltac:(lia)) as Q1.
    specialize (Hmin ((s mod m) * n + q mod n) ltac:(nia)). cbv beta in Hmin.
    replace (((s mod m) * n + q mod n) / n) with (s mod m) in Hmin.
    2:{ rewrite Nat.add_comm, Nat.div_add by lia. rewrite Nat.div_small by auto. auto. }
    replace (((s mod m) * n + q mod n) mod n) with (q mod n) in Hmin.
    2:{ rewrite Nat.add_comm, Nat.mod_add by lia. rewrite (Nat.mod_small (q mod n)) by auto. auto. }
    replace (X s q) with (X (s mod m) (q mod n)); [auto|]. unfold X. rewrite !Nat.mod_mod by lia. auto. }
  unfold livelock_semick. apply semick_loop_yes with (c := X t0 q0); auto; [|apply seq_split_at; auto].
  intros t' Hok' Hsub.
  assert (XP' : forall s q, table_protocol M t' (X (S s) q) (X s (S q)) (X (S s) (S q))).
  { intros s q. apply Hsub; [apply Xmin|apply Xmin|apply Xmin|apply XP]. }
  assert (HBt : B <= t0) by (unfold t0; clearbody B; nia).
  pose proof (semick_rec_grid t' M Hok' X XP' m n Hm Hn Pm Pn t0 q0 B HBt Xmin (limit - 1) 0) as T.
  unfold tri_bot, tri_col in T. cbn [seq map] in T. rewrite Nat.sub_0_r, !Nat.add_0_r in T.
  apply T; unfold B; lia.
Qed.
