(** Theorems about rankings: C41 (deadlocks by remaining candidates) and C42
    (states and actions by distance). *)
From Coq Require Import List Arith Bool Lia Sorted.
From Verif Require Import FinLib ReachModel ReachSpec ReachProofs RankModel RankSpec
  RankProofs RankProofs2 RankProofs3.
Import ListNotations.

Lemma sorted_ext : forall l1 l2, StronglySorted lt l1 -> StronglySorted lt l2 ->
  (forall x, In x l1 <-> In x l2) -> l1 = l2.
Proof.
  intros l1 l2 H1. revert l2. induction H1 as [|x l1 S1 IH F1]; intros l2 H2 E.
  - destruct l2 as [|y l2]; auto. exfalso. apply (E y). cbn. auto.
  - destruct H2 as [|y l2 S2 F2]; [exfalso; apply (E x); cbn; auto|].
    rewrite Forall_forall in F1, F2.
    assert (x = y).
    { destruct (proj1 (E x) (or_introl eq_refl)) as [->|A]; auto.
      destruct (proj2 (E y) (or_introl eq_refl)) as [->|B]; auto.
      apply F2 in A. apply F1 in B. lia. }
    subst y. f_equal. apply IH; auto. intros z. specialize (E z). cbn in E.
    split; intros Hz.
    + destruct (proj1 E (or_intror Hz)) as [<-|]; auto. apply F1 in Hz. lia.
    + destruct (proj2 E (or_intror Hz)) as [<-|]; auto. apply F2 in Hz. lia.
Qed.

(** * C41 *)
(** Ranking puts each deadlock state in the rank given by the number of candidates that resolve
    it, lists for each rank the candidates that resolve a state of it, and stops at the last rank
    that has a state. *)
Theorem C41_rank_exact : forall St eq_dec univ guard cands dead,
  (forall s : St, In s univ) ->
  let d := rank_deadlocks St eq_dec univ guard cands dead in
  ranking St guard (fun s => dead s = true) cands d /\
  (d = [] <-> forall s, dead s = false) /\
  (d <> [] -> exists s, dead s = true /\ enabled_count St guard cands s = length d - 1).
Proof. intros. apply rank_deadlocks_exact. auto. Qed.
Print Assumptions C41_rank_exact.

(** A correct ranking is unique, except for empty ranks at the end. *)
Theorem C41_ranking_unique : forall St guard dead cands d1 d2,
  ranking St guard dead cands d1 -> ranking St guard dead cands d2 ->
  forall i, (forall s, dl_states St (nth i d1 (dl0 St)) s = dl_states St (nth i d2 (dl0 St)) s) /\
            dl_cands St (nth i d1 (dl0 St)) = dl_cands St (nth i d2 (dl0 St)).
Proof.
  intros St guard dead cands d1 d2 [A1 A2 A3] [B1 B2 B3] i. split.
  - intros s. pose proof (A1 i s) as A. pose proof (B1 i s) as B.
    destruct (dl_states St (nth i d1 (dl0 St)) s), (dl_states St (nth i d2 (dl0 St)) s); auto.
    + symmetry. apply B, A. reflexivity.
    + apply A, B. reflexivity.
  - apply sorted_ext; auto. intros a. rewrite A2, B2. reflexivity.
Qed.
Print Assumptions C41_ranking_unique.

(** Revising a correct ranking after some candidates became actions and others were dropped
    either gives a correct ranking for the deadlocks and candidates that are left, or stops with
    the failed check; the latter only if a deadlock is left that nothing resolves. *)
Theorem C41_revise_exact : forall St eq_dec univ guard cands adds dels dead d,
  (forall s : St, In s univ) -> NoDup cands ->
  (forall a, In a adds -> In a cands) -> (forall a, In a dels -> In a cands) ->
  ranking St guard dead cands d ->
  let left_over := filter (fun a => negb (existsb (Nat.eqb a) dels))
                          (filter (fun a => negb (existsb (Nat.eqb a) adds)) cands) in
  let still_dead := fun s => dead s /\ ~ exists a, In a adds /\ guard a s = true in
  match revise_deadlocks St eq_dec univ guard adds dels d with
  | Some d' => ranking St guard still_dead left_over d'
  | None => exists s, still_dead s /\ enabled_count St guard left_over s = 0
  end.
Proof.
  intros St eq_dec univ guard cands adds dels dead d full ND HA HD RK. cbv zeta.
  pose proof (revise_exact St eq_dec univ full guard cands adds dels dead ND HA HD d RK) as P.
  destruct (revise_deadlocks St eq_dec univ guard adds dels d) as [d'|].
  - apply P.
  - destruct P as (s & P1 & P2 & P3). exists s. auto.
Qed.
Print Assumptions C41_revise_exact.

(** So when every deadlock left can be resolved, revising the ranking is the same as ranking
    again from the start. *)
Theorem C41_revise_is_rank : forall St eq_dec univ guard cands adds dels (dead dead' : St -> bool),
  (forall s, In s univ) -> NoDup cands ->
  (forall a, In a adds -> In a cands) -> (forall a, In a dels -> In a cands) ->
  let left_over := filter (fun a => negb (existsb (Nat.eqb a) dels))
                          (filter (fun a => negb (existsb (Nat.eqb a) adds)) cands) in
  (forall s, dead' s = true <-> dead s = true /\ ~ exists a, In a adds /\ guard a s = true) ->
  (forall s, dead' s = true -> exists a, In a left_over /\ guard a s = true) ->
  exists d, revise_deadlocks St eq_dec univ guard adds dels
              (rank_deadlocks St eq_dec univ guard cands dead) = Some d /\
    let fresh := rank_deadlocks St eq_dec univ guard left_over dead' in
    forall i, (forall s, dl_states St (nth i d (dl0 St)) s = dl_states St (nth i fresh (dl0 St)) s) /\
              dl_cands St (nth i d (dl0 St)) = dl_cands St (nth i fresh (dl0 St)).
Proof.
  intros St eq_dec univ guard cands adds dels dead dead' full ND HA HD left_over HS HR.
  pose proof (proj1 (C41_rank_exact St eq_dec univ guard cands dead full)) as RK.
  pose proof (C41_revise_exact St eq_dec univ guard cands adds dels _ _ full ND HA HD RK) as P.
  cbv zeta in P. fold left_over in P.
  destruct (revise_deadlocks _ _ _ _ _ _ _) as [d|].
  - exists d. split; auto. cbv zeta. apply C41_ranking_unique with (guard := guard) (dead := fun s => dead' s = true) (cands := left_over).
    + destruct P as [P1 P2 P3]. split; auto.
      * intros i s. rewrite P1, HS. reflexivity.
      * intros i a. rewrite P2. split; intros (Ha & s & H1 & H2); split; auto; exists s; apply HS in H1; auto.
    + apply C41_rank_exact. auto.
  - exfalso. destruct P as (s & P1 & P2). apply HS in P1. destruct (HR s P1) as (a & Ha & G).
    apply (cnt_zero St guard) with (a := a) in P2; auto. congruence.
Qed.
Print Assumptions C41_revise_is_rank.

(** Example: six states; action 0 resolves 0 and 1, action 1 resolves 1 and 2, action 2 resolves 2
    and 3, action 3 resolves 1, 2 and 4; state 5 is no deadlock. *)
Inductive six := s0 | s1 | s2 | s3 | s4 | s5.
Definition num (s : six) : nat :=
  match s with s0 => 0 | s1 => 1 | s2 => 2 | s3 => 3 | s4 => 4 | s5 => 5 end.
Definition six_dec : forall x y : six, {x = y} + {x <> y}.
Proof. decide equality. Defined.
Definition ex_univ : list six := [s0; s1; s2; s3; s4; s5].
Lemma ex_full : forall s, In s ex_univ.
Proof. intros []; cbn; tauto. Qed.
Definition ex_guard (a : nat) (x : six) : bool :=
  let s := num x in
  match a with
  | 0 => (s =? 0) || (s =? 1)
  | 1 => (s =? 1) || (s =? 2)
  | 2 => (s =? 2) || (s =? 3)
  | 3 => (s =? 1) || (s =? 2) || (s =? 4)
  | _ => false
  end.
Definition ex_dead (s : six) : bool := num s <? 5.
Definition shown (d : list (dlset six)) : list (list nat * list nat) :=
  map (fun x => (map num (filter (dl_states six x) ex_univ), dl_cands six x)) d.
Example C41_example :
  shown (rank_deadlocks six six_dec ex_univ ex_guard [0; 1; 2; 3] ex_dead) =
    [([], []); ([0; 3; 4], [0; 2; 3]); ([], []); ([1; 2], [0; 1; 2; 3])] /\
  option_map shown (revise_deadlocks six six_dec ex_univ ex_guard [3] [1]
    (rank_deadlocks six six_dec ex_univ ex_guard [0; 1; 2; 3] ex_dead)) =
    Some [([], []); ([0; 3], [0; 2]); ([], []); ([], [])] /\
  option_map shown (revise_deadlocks six six_dec ex_univ ex_guard [] [1]
    (rank_deadlocks six six_dec ex_univ ex_guard [0; 1; 2; 3] ex_dead)) =
    Some [([], []); ([0; 3; 4], [0; 2; 3]); ([1; 2], [0; 2; 3]); ([], [])].
Proof. vm_compute. auto. Qed.

(** The failed check is real: dropping three candidates of one rank can stop the program instead
    of reporting that a deadlock cannot be resolved. *)
Theorem C41_revise_stops_refuted : exists guard cands dels (dead : six -> bool),
  NoDup cands /\ (forall a, In a dels -> In a cands) /\
  revise_deadlocks six six_dec ex_univ guard [] dels
    (rank_deadlocks six six_dec ex_univ guard cands dead) = None.
Proof.
  exists (fun a s => match a with 1 => num s <? 2 | 2 => num s =? 0 | 3 => num s =? 1 | _ => false end),
    [1; 2; 3], [1; 2; 3], (fun s => num s <? 2).
  split; [repeat constructor; cbn; lia|]. split; auto.
Qed.
Print Assumptions C41_revise_stops_refuted.

(** * C42 *)
(** Layer [i] holds exactly the states at distance [i] from the legitimate ones, no layer but the
    first is empty, and ranking succeeds exactly when every state can reach a legitimate one. *)
Theorem C42_states_exact : forall St eq_dec univ (xn : St -> St -> bool) (legit : St -> bool) fuel,
  (forall s, In s univ) -> length univ < fuel ->
  exists layers ok, rank_states St eq_dec univ fuel xn legit = Some (layers, ok) /\
    (forall i s, nth i layers (fun _ => false) s = true <->
       distance St (fun a b => xn a b = true) (fun a => legit a = true) s i) /\
    (forall i, 1 <= i < length layers -> exists s, nth i layers (fun _ => false) s = true) /\
    (ok = true <-> forall s, exists t, legit t = true /\ reaches St (fun a b => xn a b = true) s t).
Proof.
  intros St eq_dec univ xn legit fuel full HF.
  destruct (rank_states_exact St eq_dec univ full xn legit fuel HF) as (ls & ok & E & A1 & A2 & A3 & A4).
  exists ls, ok. split; auto. split; auto. split; auto.
  intros i Hi. destruct (A3 i Hi) as [s Hs]. exists s. apply A2, Hs.
Qed.
Print Assumptions C42_states_exact.

(** When ranking succeeds, every candidate is put in exactly one layer: the smallest [j] such that
    it has a step from a state at distance [j] to one at distance [j-1], or the last layer if it
    has none. *)
Theorem C42_actions_exact : forall St eq_dec univ act_xn cands (xn : St -> St -> bool) (legit : St -> bool) fuel,
  (forall s, In s univ) -> length univ < fuel ->
  let dist := distance St (fun a b => xn a b = true) (fun a => legit a = true) in
  let approaches a j := exists s t, dist s j /\ act_xn a s t = true /\ dist t (j - 1) in
  match rank_actions St eq_dec univ fuel act_xn cands xn legit with
  | None => False
  | Some None => exists s, forall t, legit t = true -> ~ reaches St (fun a b => xn a b = true) s t
  | Some (Some ls) =>
      (forall s, exists t, legit t = true /\ reaches St (fun a b => xn a b = true) s t) /\
      forall a j, In a (nth j ls []) <->
        In a cands /\
        ((1 <= j /\ S j < length ls /\ approaches a j /\ forall k, 1 <= k -> k < j -> ~ approaches a k) \/
         (S j = length ls /\ forall k, 1 <= k -> ~ approaches a k))
  end.
Proof.
  intros St eq_dec univ act_xn cands xn legit fuel full HF dist approaches. unfold rank_actions.
  destruct (rank_states_exact St eq_dec univ full xn legit fuel HF) as (ls & ok & E & A1 & A2 & A3 & A4).
  rewrite E. destruct ok.
  - split; [apply A4; reflexivity|].
    intros a j. set (lay := fun a => action_layer St eq_dec univ (act_xn a) ls (length ls - 1) 1).
    assert (LN : length ls > 0) by (destruct ls; [congruence|cbn; lia]).
    destruct (action_layer_spec St eq_dec univ full (act_xn a) ls (length ls - 1) 1) as (B1 & B2 & B3); try lia.
    cbv zeta in B2, B3. fold (lay a) in B1, B2, B3.
    assert (AP : forall k, 1 <= k -> (approaches a k <->
      exists s t, nth k ls (pfalse St) s = true /\ act_xn a s t = true /\ nth (k - 1) ls (pfalse St) t = true)).
    { intros k Hk. unfold approaches. split; intros (s & t & P & Q & T); exists s, t; split; try apply A2; auto;
        split; auto; apply A2; auto. }
    assert (NA : forall k, length ls <= k -> ~ approaches a k).
    { intros k Hk C. apply AP in C; [|lia]. destruct C as (s & t & P & _).
      rewrite nth_overflow in P by auto. discriminate. }
    rewrite map_length, seq_length.
    assert (IN : In a (nth j (map (fun j => filter (fun a => lay a =? j) cands) (seq 0 (length ls + 1))) []) <->
                 j < length ls + 1 /\ In a cands /\ lay a = j).
    { destruct (Nat.lt_ge_cases j (length ls + 1)) as [Hj|Hj].
      - rewrite nth_indep with (d' := (fun j => filter (fun a => lay a =? j) cands) 0)
          by (rewrite map_length, seq_length; auto).
        rewrite (map_nth (fun j => filter (fun a => lay a =? j) cands)), seq_nth by auto.
        rewrite filter_In, Nat.eqb_eq. cbn [Nat.add]. tauto.
      - rewrite nth_overflow by (rewrite map_length, seq_length; auto). cbn. intuition lia. }
    etransitivity; [exact IN|]. split.
    + intros (Hj & Ha & <-). split; auto. destruct (Nat.eq_dec (lay a) (length ls)) as [EL|NL].
      * right. split; [lia|]. intros k Hk C. destruct (Nat.lt_ge_cases k (length ls)).
        -- apply AP in C; auto. apply (B3 k); auto. lia.
        -- apply (NA k); auto.
      * left. split; [lia|]. split; [lia|]. split; [apply AP; [lia|]; apply B2; lia|].
        intros k K1 K2 C. apply AP in C; auto. apply (B3 k); auto.
    + intros (Ha & [(H1 & H2 & H3 & H4)|(H1 & H2)]).
      * split; [lia|]. split; auto. destruct (Nat.lt_trichotomy (lay a) j) as [C|[C|C]]; auto; exfalso.
        -- apply (H4 (lay a)); [lia|auto|]. apply AP; [lia|]. apply B2. lia.
        -- apply AP in H3; auto. apply (B3 j); auto.
      * split; [lia|]. split; auto. destruct (Nat.eq_dec (lay a) (length ls)); [lia|]. exfalso.
        apply (H2 (lay a)); [lia|]. apply AP; [lia|]. apply B2. lia.
  - assert (X : exists s, taut St univ (fun s => existsb (fun j => nth j ls (pfalse St) s) (seq 0 (length ls))) = false /\
       existsb (fun j => nth j ls (pfalse St) s) (seq 0 (length ls)) = false).
    { destruct (taut St univ (fun s => existsb (fun j => nth j ls (pfalse St) s) (seq 0 (length ls)))) eqn:T.
      - exfalso. assert (false = true); [|discriminate]. apply A4. intros s.
        pose proof (proj1 (taut_spec St univ full _) T s) as Q. apply existsb_exists in Q.
        destruct Q as (j & _ & Q). apply A2 in Q. destruct Q as [(t & P1 & P2) _]. exists t. split; auto.
        exists j. exact P2.
      - destruct (existsb (fun s => negb (existsb (fun j => nth j ls (pfalse St) s) (seq 0 (length ls)))) univ) eqn:EX.
        + apply existsb_exists in EX. destruct EX as (s & _ & EX). apply negb_true_iff in EX. exists s. auto.
        + exfalso. assert (T' : taut St univ (fun s => existsb (fun j => nth j ls (pfalse St) s) (seq 0 (length ls))) = true).
          { apply (taut_spec St univ full). intros s.
            destruct (existsb (fun j => nth j ls (pfalse St) s) (seq 0 (length ls))) eqn:Q; auto. exfalso.
            assert (true = false); [|discriminate]. rewrite <- EX. symmetry. apply existsb_exists.
            exists s. split; auto. rewrite Q. reflexivity. }
          congruence. }
    destruct X as (s & _ & X). exists s. intros t Ht [n Hn].
    assert (ND : forall j, ~ dist s j).
    { intros j Hj. apply A2 in Hj. destruct (Nat.lt_ge_cases j (length ls)).
      - assert (true = false); [|discriminate]. rewrite <- X. symmetry. apply existsb_exists.
        exists j. split; auto. apply in_seq. lia.
      - rewrite nth_overflow in Hj by auto. discriminate. }
    revert t Ht Hn. induction n as [n IHn] using lt_wf_ind. intros t Ht Hn.
    apply (ND n). split; [exists t; auto|]. intros m t' M1 M2 M3. apply (IHn m M1 t'); auto.
Qed.
Print Assumptions C42_actions_exact.

(** Example: a line of states leading to state 0, with a short cut from 4 to 2, and three actions. *)
Definition line_xn (x y : six) : bool :=
  let s := num x in let t := num y in (s =? S t) || ((s =? 4) && (t =? 2)).
Definition line_act (a : nat) (x y : six) : bool :=
  let s := num x in let t := num y in
  match a with 0 => (s =? 1) && (t =? 0) | 1 => (s =? 4) && ((t =? 2) || (t =? 3)) | _ => (s =? 0) && (t =? 3) end.
Example C42_example :
  option_map (fun p => (map (fun l => map num (filter l ex_univ)) (fst p), snd p))
    (rank_states six six_dec ex_univ 7 line_xn (fun s => num s =? 0)) =
    Some ([[0]; [1]; [2]; [3; 4]; [5]], true) /\
  rank_actions six six_dec ex_univ 7 line_act [0; 1; 2] line_xn (fun s => num s =? 0) =
    Some (Some [[]; [0]; []; [1]; []; [2]]) /\
  rank_actions six six_dec ex_univ 7 line_act [0; 1; 2] (fun s t => (num s =? 1) && (num t =? 0)) (fun s => num s =? 0) =
    Some None.
Proof. vm_compute. auto. Qed.
