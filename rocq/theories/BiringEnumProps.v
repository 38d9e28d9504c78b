(** C102: local invariants up to the names of the values, and their enumeration. *)
From Coq Require Import List Arith Bool Lia.
From Verif Require Import Radix BiringModel BiringSpec BiringProofs BiringProofs2 BiringProps
  BiringEnumModel BiringEnumSpec BiringEnumProofs BiringEnumProofs2.
Import ListNotations.

(** Two sets have the same canonical form exactly if they differ only in the names
    of the values. *)
Theorem C102_canonical : forall M gt s t, strict_total gt -> length s = M * M * M -> length t = M * M * M ->
  (canonical_set M gt s = canonical_set M gt t <-> isomorphic M s t).
Proof. intros M gt s t G Ls Lt. apply canonical_iff; auto. Qed.
Print Assumptions C102_canonical.

(** The canonical form is the set itself under other names, and the largest such. *)
Theorem C102_form : forall M gt s, strict_total gt -> length s = M * M * M ->
  isomorphic M s (canonical_set M gt s) /\
  forall t, isomorphic M s t -> t = canonical_set M gt s \/ gt (canonical_set M gt s) t = true.
Proof.
  intros M gt s G L. split; [apply canonical_iso; auto|]. intros t I.
  pose proof (canonical_max M gt G s t L I) as X. destruct (list_eq_dec bool_dec t (canonical_set M gt s)) as [E|E]; auto.
  right. destruct G as (_ & _ & G). destruct (G _ _ E); congruence.
Qed.
Print Assumptions C102_form.

(** The search for a known set finds it exactly if some renaming puts all its views
    into the other set. *)
Theorem C102_subgraph : forall M s t, length s = M * M * M -> length t = M * M * M ->
  (subgraph_isomorphism_ck M s t = true <->
   exists f, renaming M f /\ forall a b d, a < M -> b < M -> d < M ->
     in_table M s (a, b, d) -> in_table M t (f a, f b, f d)).
Proof.
  intros M s t Ls Lt. unfold subgraph_isomorphism_ck. rewrite existsb_exists.
  assert (X : forall f, renaming M f -> (subseteq_ck (permute_pc_config M s f) t = true <->
    forall a b d, a < M -> b < M -> d < M -> in_table M s (a, b, d) -> in_table M t (f a, f b, f d))).
  { intros f R. destruct (permute_renamed M s f Ls R) as (L & P). unfold subseteq_ck. rewrite forallb_forall. split.
    - intros H a b d Ha Hb Hd K. apply P in K; auto. apply (H (place M (f a, f b, f d))). apply members_in. exact K.
    - intros H i Hi. apply members_in in Hi. pose proof (ck_bound _ _ Hi) as B. rewrite L, Ls in B.
      destruct (place_config M i B) as (V1 & V2). destruct (pc_config_of_enum_idx M i) as ((a & b) & d). destruct V1 as (Va & Vb & Vd).
      pose proof (renaming_onto M f R) as O.
      destruct (O a Va) as (a' & A1 & <-). destruct (O b Vb) as (b' & B1 & <-). destruct (O d Vd) as (d' & D1 & <-).
      rewrite <- V2 in Hi |- *. apply P in Hi; auto. apply (H a' b' d'); auto. }
  split.
  - intros (f & F1 & F2). destruct (perm_maps_ok M f F1) as (R & _). exists f. split; auto. apply X; auto.
  - intros (p & P & H). destruct (perm_maps_complete M p P) as (f & F1 & F2). exists f. split; auto.
    destruct (perm_maps_ok M f F1) as (R & _). apply X; auto. intros a b d Ha Hb Hd K. rewrite !F2 by auto. auto.
Qed.
Print Assumptions C102_subgraph.

Lemma fold_clear : forall (F : bits -> nat -> bits) (pos : nat -> nat) l z,
  (forall s v j, ck (F s v) j = true -> ck s j = true) -> (forall s v, In v l -> ck (F s v) (pos v) = false) ->
  (forall s v, length (F s v) = length s) ->
  length (fold_left F l z) = length z /\ (forall j, ck (fold_left F l z) j = true -> ck z j = true) /\
  forall v, In v l -> ck (fold_left F l z) (pos v) = false.
Proof.
  intros F pos l z H1 H2 H3. revert z. induction l as [|x l IH]; intros z; cbn [fold_left].
  - split; auto. split; auto. intros v [].
  - destruct (IH (fun s v Hv => H2 s v (or_intror Hv)) (F z x)) as (L & M1 & C). split; [rewrite L; apply H3|]. split.
    + intros j K. apply M1 in K. apply H1 in K. auto.
    + intros v [<-|Hv]; auto. match goal with |- ?y = false => destruct y eqn:E end; auto.
      apply M1 in E. rewrite H2 in E; [auto|left; auto].
Qed.

Lemma start_set_spec : forall M pair trivial, length (start_set M pair trivial) = M * M * M /\
  (trivial = false -> forall v, v < M -> ck (start_set M pair trivial) (place M (v, v, v)) = false).
Proof.
  intros M pair trivial. unfold start_set. destruct trivial; [split; [apply repeat_length|discriminate]|].
  match goal with |- length (fold_left ?F ?l ?z) = _ /\ _ => destruct (fold_clear F (fun v => place M (v, v, v)) l z) as (L & _ & C) end.
  - intros s v j. destruct pair.
    + apply (fold_set_false (fun i => enum_idx_of_pc_config M (v, v, i)) (seq 0 M) s).
    + apply (fold_set_false (fun i => i) [enum_idx_of_pc_config M (v, v, v)] s).
  - intros s v Hv. destruct pair.
    + rewrite <- enum_place.
      apply (fold_clear (fun s i => set_bit s (enum_idx_of_pc_config M (v, v, i)) false) (fun i => enum_idx_of_pc_config M (v, v, i)) (seq 0 M) s).
      * intros s' i j. apply (fold_set_false (fun i => i) [enum_idx_of_pc_config M (v, v, i)] s').
      * intros s' i _. apply ck_clear.
      * intros s' i. apply set_bit_length.
      * exact Hv.
    + rewrite <- enum_place. apply ck_clear.
  - intros s v. destruct pair; [apply (fold_set_false (fun i => enum_idx_of_pc_config M (v, v, i)) (seq 0 M) s)|apply set_bit_length].
  - rewrite repeat_length in L. split; auto. intros _ v Hv. apply C. apply in_seq. lia.
Qed.

(** What is printed: the search ends; no two of the printed sets differ only in the
    names of the values; every view of a printed set occurs in a legitimate state of
    some ring; the sizes asked for are possible; and without the option no view
    has three equal values. *)
Theorem C102_printed : forall M gt pair minsz fuel trivial, strict_total gt -> 2 ^ (M * M * M) < fuel ->
  exists db, searchit M gt pair minsz fuel trivial = Some db /\ NoDup db /\
    (forall c c', In c db -> In c' db -> isomorphic M c c' -> c = c') /\
    forall c, In c db -> length c = M * M * M /\
      (minsz = 0 -> exists N, forall n, N <= n -> 1 <= n -> satisfiable M (in_table M c) n) /\
      (1 <= minsz -> forall n, minsz <= n -> satisfiable M (in_table M c) n) /\
      (forall a b d, a < M -> b < M -> d < M -> in_table M c (a, b, d) -> occurs M (in_table M c) (a, b, d)) /\
      (trivial = false -> forall v, v < M -> ~ in_table M c (v, v, v)).
Proof.
  intros M gt pair minsz fuel trivial G Hf. destruct (start_set_spec M pair trivial) as (L & T).
  set (st := start_set M pair trivial) in *.
  destruct (enter_inv M gt G minsz fuel st Hf (recurse_loop M gt pair minsz fuel (M * M * M)) st []) as (db & E & N & I).
  - intros s db0. apply recurse_loop_inv; auto.
  - split; auto.
  - split; [constructor|intros c []].
  - exists db. split; [exact E|]. split; auto. split.
    + intros c c' H H' J. destruct (I c H) as (L1 & K1 & _). destruct (I c' H') as (L2 & K2 & _).
      rewrite <- K1, <- K2. apply canonical_iff; auto.
    + intros c H. destruct (I c H) as (L1 & _ & S1 & O1 & (s & (Ls & B) & f & R & R1 & R2)). unfold sizes_ok in S1.
      split; auto. split; [intros ->; exact S1|]. split; [intros H0; destruct (Nat.eqb_spec minsz 0); [lia|exact S1]|].
      split; auto. intros HT v Hv K. pose proof (renaming_onto M f R) as O. destruct (O v Hv) as (k & K1 & <-).
      apply R2 in K; auto. apply B in K. rewrite (T HT k K1) in K. discriminate.
Qed.
Print Assumptions C102_printed.

Lemma fold_keep : forall (g : nat -> nat) l (z : bits) j, (forall v, In v l -> g v <> j) ->
  ck (fold_left (fun s v => set_bit s (g v) false) l z) j = ck z j.
Proof.
  intros g. induction l as [|v l IH]; intros z j H; cbn [fold_left]; auto.
  rewrite IH by (intros w Hw; apply H; right; auto).
  destruct (Nat.lt_ge_cases (g v) (length z)) as [B|B].
  - rewrite ck_set_bit by auto. destruct (Nat.eqb_spec (g v) j); auto. exfalso. apply (H v); auto. left. auto.
  - f_equal. clear - B. revert B. generalize (g v) as k. induction z as [|x z IH]; intros [|k] B; cbn in *; auto; try lia.
    f_equal. apply IH. lia.
Qed.

Lemma start_set_all : forall M trivial D, length D = M * M * M ->
  (trivial = false -> forall v, v < M -> ~ in_table M D (v, v, v)) ->
  forall i, ck D i = true -> ck (start_set M false trivial) i = true.
Proof.
  intros M trivial D L H i K. pose proof (ck_bound _ _ K) as B. rewrite L in B.
  assert (R : ck (repeat true (M * M * M)) i = true).
  { unfold ck. rewrite (nth_indep _ false true) by (rewrite repeat_length; auto). apply nth_repeat. }
  unfold start_set. destruct trivial; auto.
  rewrite (fold_keep (fun v => enum_idx_of_pc_config M (v, v, v))); auto.
  intros v Hv E. apply in_seq in Hv. rewrite enum_place in E. subst i. apply (H eq_refl v); [lia|exact K].
Qed.

(** Nothing is missed: every set of views which all occur, with states for the
    sizes asked for (and without views of three equal values unless they are
    wanted), is printed under some names of the values. *)
Theorem C102_complete : forall M gt minsz fuel trivial db s, strict_total gt -> 2 ^ (M * M * M) < fuel ->
  searchit M gt false minsz fuel trivial = Some db ->
  length s = M * M * M ->
  (forall a b d, a < M -> b < M -> d < M -> in_table M s (a, b, d) -> occurs M (in_table M s) (a, b, d)) ->
  (minsz = 0 -> exists N, forall n, N <= n -> 1 <= n -> satisfiable M (in_table M s) n) ->
  (1 <= minsz -> forall n, minsz <= n -> satisfiable M (in_table M s) n) ->
  (trivial = false -> forall v, v < M -> ~ in_table M s (v, v, v)) ->
  exists c, In c db /\ isomorphic M s c.
Proof.
  intros M gt minsz fuel trivial db s G Hf Hs L HC H0 H1 HT.
  destruct (start_set_spec M false trivial) as (Lst & _).
  assert (HB : below M (start_set M false trivial) s) by (split; [auto|apply start_set_all; auto]).
  assert (HS : sizes_ok M minsz s).
  { unfold sizes_ok. destruct (Nat.eqb_spec minsz 0); [auto|]. apply H1. lia. }
  clear H0 H1 HT. unfold searchit, recurse in Hs. set (st := start_set M false trivial) in *.
  assert (X : forall k D, val D < k -> below M st D -> closed M D -> sizes_ok M minsz D -> exists c, In c db /\ isomorphic M D c).
  2:{ apply (X (S (val s)) s); auto. }
  induction k as [|k IH]; intros D Hk (LD & BD) CD SD; [lia|].
  pose proof Hs as E. apply enter_cases in E; auto. destruct E as (t & F & Lt & St & Cases).
  assert (Dt : sub D t) by (apply (closed_sub M D st t); auto).
  assert (R : (exists c, In c db /\ isomorphic M D c) \/ smaller M st D).
  { destruct Cases as [(N & _)|[(_ & [] & _)|(_ & _ & Lp)]].
    - exfalso. apply N. apply (sub_sizes M minsz D t); auto.
    - apply (loop_complete M gt G minsz fuel st Hf D LD CD SD (M * M * M) t ([] ++ [canonical_set M gt t]) db); auto.
      + split; auto.
      + intros i Hi K. apply ck_bound in K. rewrite Lt in K. lia.
      + left. auto.
      + intros c [<-|[]]. left. apply (count_iso_le M); auto. apply canonical_iso; auto. }
  destruct R as [R|(D' & p & B' & I & P1 & P2 & P3)]; auto.
  destruct (IH D') as (c & C1 & C2); auto.
  - assert (val D' < val D); [|lia]. apply (val_lt D' D p); auto. apply (iso_length M D D' I).
  - destruct I as (f & Rf & T). pose proof (renaming_onto M f Rf) as O. intros a b d Ha Hb Hd K.
    destruct (O a Ha) as (a' & A1 & <-). destruct (O b Hb) as (b' & B1 & <-). destruct (O d Hd) as (d' & D1 & <-).
    apply (iso_occurs M f D D'); auto. apply CD; auto. apply T; auto.
  - unfold sizes_ok in *. destruct (minsz =? 0).
    + destruct SD as (N & SD). exists N. intros n N1 N2. apply (iso_satisfiable M D D' n I). auto.
    + intros n N1. apply (iso_satisfiable M D D' n I). auto.
  - exists c. split; auto. apply (iso_trans M D D' c); auto.
Qed.
Print Assumptions C102_complete.

(** Tables as binary numbers, the first bit being the most significant: a strict
    order.  With two values and rings from size 3 on there are two sets without
    views of three equal values; the second is that of the example of C101. *)
Fixpoint lex_gt (a b : list bool) : bool :=
  match a, b with
  | _, [] => match a with [] => false | _ => true end
  | [], _ => false
  | x :: a', y :: b' => if Bool.eqb x y then lex_gt a' b' else x
  end.
Lemma lex_strict_total : strict_total lex_gt.
Proof.
  split; [|split].
  - induction a as [|[] a IH]; auto.
  - induction a as [|x a IH]; intros [|y b] [|z c] H1 H2; cbn in *; auto; try discriminate.
    destruct x, y, z; cbn in *; auto; try discriminate; eauto.
  - induction a as [|x a IH]; intros [|y b] H; cbn; auto; try congruence.
    destruct x, y; cbn; auto; apply IH; congruence.
Qed.

Theorem C102_example :
  strict_total lex_gt /\ 2 ^ (2 * 2 * 2) < 257 /\
  searchit 2 lex_gt false 3 257 false =
    Some [tab [(0,0,1); (0,1,0); (1,0,0); (1,0,1); (0,1,1); (1,1,0)]; tab [(0,0,1); (0,1,0); (1,0,0); (1,0,1)]] /\
  canonical_set 2 lex_gt (tab [(1,1,0); (1,0,1); (0,1,1); (0,1,0)]) = tab [(0,0,1); (0,1,0); (1,0,0); (1,0,1)] /\
  subgraph_isomorphism_ck 2 (tab [(1,1,0); (1,0,1)]) (tab [(0,0,1); (0,1,0); (1,0,0)]) = true /\
  subgraph_isomorphism_ck 2 (tab [(1,1,0); (0,0,1)]) (tab [(0,0,1); (0,1,0); (1,0,0)]) = false.
Proof. split; [exact lex_strict_total|]. repeat split; vm_compute; reflexivity. Qed.
Print Assumptions C102_example.
