(** C102 with the option of pairs. *)
From Coq Require Import List Arith Bool Lia.
From Verif Require Import Radix BiringModel BiringSpec BiringProofs BiringProofs2 BiringProps
  BiringEnumModel BiringEnumSpec BiringEnumProofs BiringEnumProofs2 BiringEnumProps BiringPairProofs BiringPairProofs2 BiringFilterModel BiringFilterProps.
Import ListNotations.

(** A set of views given by pairs of neighbouring values: a view is in it exactly
    if the first two and the last two of its values are among the pairs. *)
Definition by_pairs (M : nat) (V : nat * nat * nat -> Prop) : Prop :=
  exists P : nat -> nat -> Prop, forall a b d, a < M -> b < M -> d < M -> (V (a, b, d) <-> P a b /\ P b d).

Lemma pair_start : forall M trivial D, length D = M * M * M -> shaped M D ->  closed M D ->
  (trivial = false -> forall v, v < M -> ~ in_table M D (v, v, v)) ->
  forall i, ck D i = true -> ck (start_set M true trivial) i = true.
Proof.
  intros M trivial D L HP HC H i K. pose proof (ck_bound _ _ K) as B. rewrite L in B.
  assert (R : ck (repeat true (M * M * M)) i = true).
  { unfold ck. rewrite (nth_indep _ false true) by (rewrite repeat_length; auto). apply nth_repeat. }
  unfold start_set. destruct trivial; auto.
  assert (N : forall v d, v < M -> d < M -> place M (v, v, d) <> i).
  { intros v d Hv Hd E. apply (H eq_refl v Hv). rewrite <- E in K. apply (HP v v v d d); auto; exact K. }
  assert (G : forall l z, (forall v, In v l -> v < M) -> ck z i = true ->
    ck (fold_left (fun set v => fold_left (fun set i => set_bit set (enum_idx_of_pc_config M (v, v, i)) false) (seq 0 M) set) l z) i = true).
  { induction l as [|v l IH]; intros z Hl Hz; cbn [fold_left]; auto. apply IH; [intros w Hw; apply Hl; right; auto|].
    rewrite (fold_keep (fun i => enum_idx_of_pc_config M (v, v, i))); auto.
    intros d Hd E. apply in_seq in Hd. rewrite enum_place in E. apply (N v d); [apply Hl; left; auto|lia|auto]. }
  apply G; auto. intros v Hv. apply in_seq in Hv. lia.
Qed.

(** Nothing is missed with the option of pairs: every set given by pairs in which all
    views occur, with states for the sizes asked for (and without views of three equal
    values unless they are wanted), is printed under some names of the values. *)
Theorem C102_complete_pair : forall M gt minsz fuel trivial db s, strict_total gt -> 2 ^ (M * M * M) < fuel ->
  searchit M gt true minsz fuel trivial = Some db ->
  length s = M * M * M -> by_pairs M (in_table M s) ->
  (forall a b d, a < M -> b < M -> d < M -> in_table M s (a, b, d) -> occurs M (in_table M s) (a, b, d)) ->
  (minsz = 0 -> exists N, forall n, N <= n -> 1 <= n -> satisfiable M (in_table M s) n) ->
  (1 <= minsz -> forall n, minsz <= n -> satisfiable M (in_table M s) n) ->
  (trivial = false -> forall v, v < M -> ~ in_table M s (v, v, v)) ->
  exists c, In c db /\ isomorphic M s c.
Proof.
  intros M gt minsz fuel trivial db s G Hf Hs L (P & BP) HC H0 H1 HT.
  assert (SH : shaped M s).
  { intros a b d x y Ha Hb Hd Hx Hy K1 K2. apply BP in K1, K2; auto. apply BP; tauto. }
  destruct (start_set_spec M true trivial) as (Lst & _).
  assert (HB : below M (start_set M true trivial) s) by (split; [auto|apply pair_start; auto]).
  assert (HS : sizes_ok M minsz s).
  { unfold sizes_ok. destruct (Nat.eqb_spec minsz 0); [auto|]. apply H1. lia. }
  clear H0 H1 HT BP P. unfold searchit, recurse in Hs. set (st := start_set M true trivial) in *.
  assert (X : forall k D, val (pairs M D) < k -> below M st D -> closed M D -> sizes_ok M minsz D -> shaped M D -> exists c, In c db /\ isomorphic M D c).
  2:{ apply (X (S (val (pairs M s))) s); auto. }
  induction k as [|k IH]; intros D Hk (LD & BD) CD SD PD; [lia|].
  pose proof Hs as E. apply enter_cases in E; auto. destruct E as (t & F & Lt & St & Cases).
  assert (Dt : sub D t) by (apply (closed_sub M D st t); auto).
  assert (R : (exists c, In c db /\ isomorphic M D c) \/ psmaller M st D).
  { destruct Cases as [(N & _)|[(_ & [] & _)|(_ & _ & Lp)]].
    - exfalso. apply N. apply (sub_sizes M minsz D t); auto.
    - apply (pair_complete M gt G minsz fuel st Hf D LD CD SD PD (M * M * M) t ([] ++ [canonical_set M gt t]) db); auto.
      + split; auto.
      + apply (fixpoint_closed M st); auto.
      + intros i Hi K. apply ck_bound in K. rewrite Lt in K. lia.
      + left. auto.
      + intros c [<-|[]]. left. apply (count_iso_le M); auto. apply canonical_iso; auto. }
  destruct R as [R|(D' & p & B' & I & P1 & P2 & P3)]; auto.
  assert (LD' : length D' = M * M * M) by apply B'.
  destruct (IH D') as (c & C1 & C2); auto.
  - assert (val (pairs M D') < val (pairs M D)); [|lia]. apply (val_lt _ _ p).
    + unfold pairs. rewrite !map_length. auto.
    + apply pairs_iff; auto.
    + destruct (ck (pairs M D') p) eqn:Z; auto. apply pairs_iff in Z; auto. contradiction.
    + intros i Hi K. apply pairs_iff; auto. apply pairs_iff in K; auto.
  - destruct I as (f & Rf & T). pose proof (renaming_onto M f Rf) as O. intros a b d Ha Hb Hd K.
    destruct (O a Ha) as (a' & A1 & <-). destruct (O b Hb) as (b' & B1 & <-). destruct (O d Hd) as (d' & D1 & <-).
    apply (iso_occurs M f D D'); auto. apply CD; auto. apply T; auto.
  - unfold sizes_ok in *. destruct (minsz =? 0).
    + destruct SD as (N & SD). exists N. intros n N1 N2. apply (iso_satisfiable M D D' n I). auto.
    + intros n N1. apply (iso_satisfiable M D D' n I). auto.
  - apply (shaped_iso M D); auto.
  - exists c. split; auto. apply (iso_trans M D D' c); auto.
Qed.
Print Assumptions C102_complete_pair.

(** And nothing else is printed: with the option of pairs every printed set is given
    by pairs (the rest of what C102_printed says holds with this option too). *)
Theorem C102_printed_pair : forall M gt minsz fuel trivial, strict_total gt -> 2 ^ (M * M * M) < fuel ->
  exists db, searchit M gt true minsz fuel trivial = Some db /\ forall c, In c db -> by_pairs M (in_table M c).
Proof.
  intros M gt minsz fuel trivial G Hf. destruct (C102_printed M gt true minsz fuel trivial G Hf) as (db & E & _ & _ & H).
  exists db. split; auto. intros c Hc. pose proof (searchit_shaped M gt G minsz fuel Hf trivial db E c Hc) as SH.
  destruct (H c Hc) as (L & _ & _ & CL & _).
  exists (fun a b => exists x, x < M /\ in_table M c (a, b, x)). intros a b d Ha Hb Hd. split.
  - intros K. split; [exists d; auto|]. apply (occurs_next M _ a b d). apply CL; auto.
  - intros ((x & X1 & X2) & (y & Y1 & Y2)). apply (SH a b d x y); auto.
Qed.
Print Assumptions C102_printed_pair.

(** With two values and rings of any size from 2 on, trivial views allowed: all pairs;
    all but (1,1); (0,0) alone; and (0,0) with (1,1). *)
Theorem C102_pair_example :
  strict_total lex_gt /\ 2 ^ (2 * 2 * 2) < 257 /\
  searchit 2 lex_gt true 2 257 true =
    Some [tab [(0,0,0); (0,0,1); (0,1,0); (0,1,1); (1,0,0); (1,0,1); (1,1,0); (1,1,1)];
          tab [(0,0,0); (0,0,1); (0,1,0); (1,0,0); (1,0,1)]; tab [(0,0,0)]; tab [(0,0,0); (1,1,1)]] /\
  searchit 2 lex_gt true 2 257 false = Some [] /\
  by_pairs 2 (in_table 2 (tab [(0,1,0); (0,1,1); (1,0,1); (1,1,0); (1,1,1)])) /\
  ~ by_pairs 2 (in_table 2 (tab [(0,1,0); (0,1,1); (1,0,1); (1,1,0)])).
Proof.
  split; [exact lex_strict_total|]. split; [vm_compute; lia|]. split; [vm_compute; reflexivity|]. split; [vm_compute; reflexivity|]. split.
  - exists (fun a b => a = 1 \/ b = 1). intros a b d Ha Hb Hd.
    destruct a as [|[|a]], b as [|[|b]], d as [|[|d]]; try lia; vm_compute; split; intros; try tauto; try discriminate; intuition discriminate.
  - intros (P & H). assert (P 1 1).
    { apply (H 0 1 1); [lia|lia|lia|reflexivity]. }
    assert (K : in_table 2 (tab [(0,1,0); (0,1,1); (1,0,1); (1,1,0)]) (1, 1, 1)) by (apply H; auto). vm_compute in K. discriminate.
Qed.
Print Assumptions C102_pair_example.

(** For a set given by pairs the invariant printed with the option of pairs allows the
    same states of every ring. *)
Theorem C103_pair_states : forall M s n x, length s = M * M * M -> by_pairs M (in_table M s) ->
  (legit_ring M (fun v => spec_invariant M true s v = true) n x <-> legit_ring M (in_table M s) n x).
Proof.
  intros M s n x L (P & BP). split; intros (H1 & H2 & H3); split; auto; split; auto; intros i Hi.
  - assert (B0 : (i + n - 1) mod n < n) by (apply Nat.mod_upper_bound; lia).
    assert (B1 : (i + 1) mod n < n) by (apply Nat.mod_upper_bound; lia).
    assert (B2 : ((i + 1) mod n + 1) mod n < n) by (apply Nat.mod_upper_bound; lia).
    assert (Q : ((i + 1) mod n + n - 1) mod n = i).
    { destruct (Nat.eq_dec (i + 1) n) as [Q|Q].
      - rewrite Q, Nat.mod_same by lia. replace (0 + n - 1) with i by lia. apply Nat.mod_small. auto.
      - rewrite (Nat.mod_small (i + 1)) by lia. replace (i + 1 + n - 1) with (i + 1 * n) by lia. rewrite Nat.mod_add by lia.
        apply Nat.mod_small. auto. }
    pose proof (H3 i Hi) as K. pose proof (H3 _ B1) as K'. unfold view in *. rewrite Q in K'.
    apply C103_invariant in K; auto. apply C103_invariant in K'; auto.
    destruct K as (d & D1 & D2), K' as (d' & D1' & D2'). apply BP in D2, D2'; auto. apply BP; auto. tauto.
  - assert (B0 : (i + n - 1) mod n < n) by (apply Nat.mod_upper_bound; lia).
    assert (B1 : (i + 1) mod n < n) by (apply Nat.mod_upper_bound; lia).
    pose proof (H3 i Hi) as K. unfold view in *. apply C103_invariant; auto. exists (x ((i + 1) mod n)). auto.
Qed.
Print Assumptions C103_pair_states.

(** It does not for other sets: with the views 010, 101, 100 and 001 the state of zeros is allowed. *)
Theorem C103_pair_states_refuted :
  let s := tab [(0,0,1); (0,1,0); (1,0,0); (1,0,1)] in
  legit_ring 2 (fun v => spec_invariant 2 true s v = true) 3 (fun _ => 0) /\ ~ legit_ring 2 (in_table 2 s) 3 (fun _ => 0).
Proof.
  split.
  - split; [lia|]. split; [intros; lia|]. intros i _. vm_compute. reflexivity.
  - intros (_ & _ & H). specialize (H 0 ltac:(lia)). vm_compute in H. discriminate.
Qed.
Print Assumptions C103_pair_states_refuted.
