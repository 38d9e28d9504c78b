(** C81: who writes the result of an MPI run, and the verdict on several files. *)
From Coq Require Import List ZArith Bool Lia.
From Verif Require Import MpiModel.
Import ListNotations.
Local Open Scope Z_scope.

Lemma fold_min_spec : forall l x, (In (fold_right Z.min x l) (x :: l)) /\ forall y, In y (x :: l) -> fold_right Z.min x l <= y.
Proof.
  induction l as [|a l IH]; intros x; cbn [fold_right].
  - split; [left; auto|]. intros y [<-|[]]. lia.
  - destruct (IH x) as (H1 & H2). split.
    + destruct (Z.min_spec a (fold_right Z.min x l)) as [(_ & ->)|(_ & ->)]; [right; left; auto|].
      destruct H1 as [H1|H1]; [left; auto|right; right; auto].
    + intros y [<-|[<-|Hy]].
      * pose proof (H2 x (or_introl eq_refl)). lia.
      * lia.
      * pose proof (H2 y (or_intror Hy)). lia.
Qed.
Lemma all_min_spec : forall l, l <> [] -> In (all_min l) l /\ forall y, In y l -> all_min l <= y.
Proof. intros [|x l] H; [congruence|]. apply fold_min_spec. Qed.
Lemma fold_max_spec : forall l x y, In y (x :: l) -> y <= fold_right Z.max x l.
Proof.
  induction l as [|a l IH]; intros x y; cbn [fold_right].
  - intros [<-|[]]. lia.
  - intros [<-|[<-|Hy]]; [pose proof (IH x x (or_introl eq_refl)); lia|lia|pose proof (IH x y (or_intror Hy)); lia].
Qed.
Lemma all_max_spec : forall l y, In y l -> y <= all_max l.
Proof. intros [|x l] y H; [destruct H|]. apply fold_max_spec. auto. Qed.

Definition nobody (rs : list local) : Prop := forall r, In r rs -> r = None.
Definition best (rs : list local) (i s : nat) : Prop :=
  nth_error rs i = Some (Some s) /\
  (forall j t, nth_error rs j = Some (Some t) -> (s <= t)%nat) /\
  (forall j, nth_error rs j = Some (Some s) -> (i <= j)%nat).

Lemma nth_combine_seq : forall A (l : list A) s k, nth_error (combine (seq s (length l)) l) k =
  match nth_error l k with Some x => Some ((s + k)%nat, x) | None => None end.
Proof.
  induction l as [|a l IH]; intros s k; cbn [length seq combine]; [destruct k; auto|].
  destruct k as [|k]; cbn [nth_error]; [rewrite Nat.add_0_r; auto|]. rewrite IH. destruct (nth_error l k); auto.
  rewrite Nat.add_succ_r. auto.
Qed.

Lemma chosen_none : forall rs, rs <> [] -> nobody rs -> chosen rs = -1.
Proof.
  intros rs Hne Hn. unfold chosen.
  assert (E : map sent rs = map (fun _ => -1) rs) by (apply map_ext_in; intros r Hr; rewrite (Hn r Hr); auto).
  assert (T : all_max (map sent rs) = -1).
  { rewrite E. destruct rs as [|r rs]; [congruence|]. cbn [map all_max]. clear. induction rs as [|a rs IH]; auto. cbn [map fold_right]. rewrite IH. auto. }
  rewrite T.
  assert (M : all_min (map (sent_again (-1)) rs) = 0).
  { destruct (all_min_spec (map (sent_again (-1)) rs)) as (H & _); [destruct rs; [congruence|discriminate]|].
    apply in_map_iff in H. destruct H as (r & <- & Hr). rewrite (Hn r Hr). reflexivity. }
  rewrite M. reflexivity.
Qed.

Lemma chosen_best : forall rs, (exists s, In (Some s) rs) -> (forall s, In (Some s) rs -> (0 < s)%nat) ->
  exists i s, chosen rs = Z.of_nat i /\ best rs i s.
Proof.
  intros rs (s0 & Hs0) Hpos. unfold chosen. set (top := all_max (map sent rs)). set (again := map (sent_again top) rs).
  assert (Hne : again <> []) by (unfold again; destruct rs; [destruct Hs0|discriminate]).
  destruct (all_min_spec again Hne) as (M1 & M2). set (low := all_min again) in *.
  assert (Htop : forall s, In (Some s) rs -> Z.of_nat s <= top).
  { intros s Hs. apply all_max_spec. apply (in_map sent) in Hs. exact Hs. }
  assert (Hlow : exists s, In (Some s) rs /\ low = Z.of_nat s).
  { unfold again in M1. apply in_map_iff in M1. destruct M1 as ([s|] & E & Hi); [exists s; auto|]. exfalso. cbn [sent_again] in E.
    assert (X : In (Z.of_nat s0) again) by (apply (in_map (sent_again top)) in Hs0; exact Hs0).
    specialize (M2 _ X). specialize (Htop _ Hs0). lia. }
  destruct Hlow as (s & Hs & El). pose proof (Hpos s Hs).
  destruct (Z.eqb_spec low 0) as [E0|E0]; [lia|].
  set (pcs := map (fun p => sent_pc (length rs) low (fst p) (snd p)) (combine (seq 0 (length rs)) again)).
  assert (Hp : pcs <> []) by (unfold pcs, again; destruct rs; [destruct Hs0|discriminate]).
  destruct (all_min_spec pcs Hp) as (P1 & P2).
  assert (Hnth : forall i r, nth_error rs i = Some r -> In (sent_pc (length rs) low i (sent_again top r)) pcs).
  { intros i r Hr. unfold pcs. apply in_map_iff. exists (i, sent_again top r). split; auto.
    assert (X : nth_error (combine (seq 0 (length rs)) again) i = Some (i, sent_again top r)).
    { replace (length rs) with (length again) by (unfold again; apply map_length). rewrite (nth_combine_seq Z again 0 i).
      unfold again. rewrite (map_nth_error _ _ _ Hr). auto. }
    apply nth_error_In in X. exact X. }
  assert (Hback : forall x, In x pcs -> exists i r, nth_error rs i = Some r /\ x = sent_pc (length rs) low i (sent_again top r)).
  { intros x Hx. unfold pcs in Hx. apply in_map_iff in Hx. destruct Hx as ((i & y) & <- & Hi). apply In_nth_error in Hi. destruct Hi as (k & Hk).
    assert (Ln : length rs = length again) by (symmetry; unfold again; apply map_length).
    rewrite Ln in Hk. fold again in Hk. rewrite (nth_combine_seq Z again 0 k) in Hk. unfold again in Hk. rewrite nth_error_map in Hk. match type of Hk with context [option_map _ ?e] => destruct e as [r|] eqn:Er end; cbn in Hk; [|discriminate Hk]. injection Hk as <- <-.
    exists k, r. auto. }
  assert (Hlt : forall i r, nth_error rs i = Some r -> (i < length rs)%nat) by (intros i r Hr; apply nth_error_Some; congruence).
  assert (Hsame : forall i r, nth_error rs i = Some r -> sent_again top r = low -> r = Some s).
  { intros i [t|] Hr E; cbn [sent_again sent] in E.
    - f_equal. lia.
    - specialize (Htop s Hs). lia. }
  destruct (Hback _ P1) as (i & r & Hr & Ei). unfold sent_pc in Ei. destruct (In_nth_error _ _ Hs) as (k & Hk).
  pose proof (P2 _ (Hnth k _ Hk)) as Hle. unfold sent_pc at 1 in Hle.
  replace (sent_again top (Some s)) with low in Hle by (cbn; lia). rewrite Z.eqb_refl in Hle. pose proof (Hlt k _ Hk).
  destruct (Z.eqb_spec (sent_again top r) low) as [E|E]; [|lia].
  exists i, s. split; auto. pose proof (Hsame i r Hr E) as ->. split; auto. split.
  - intros j t Ht. assert (X : In (sent_again top (Some t)) again) by (unfold again; apply in_map; apply (nth_error_In _ _ Ht)).
    specialize (M2 _ X). cbn [sent_again sent] in M2. lia.
  - intros j Hj. pose proof (P2 _ (Hnth j _ Hj)) as Hle2. unfold sent_pc at 1 in Hle2.
    replace (sent_again top (Some s)) with low in Hle2 by (cbn; lia). rewrite Z.eqb_refl in Hle2. lia.
Qed.

(** ** C81: if every solution that was found has at least one layer, then exactly
    one process writes: the first of those with the fewest layers; and "No
    solution found" is printed exactly if nobody found one. *)
Theorem C81_best_process_writes :
  forall rs : list local, rs <> [] -> (forall s, In (Some s) rs -> (0 < s)%nat) ->
    (says_none rs = true <-> nobody rs) /\
    (forall i, writes rs i = true <-> exists s, best rs i s).
Proof.
  intros rs Hne Hpos. destruct (existsb (fun r => match r with Some _ => true | None => false end) rs) eqn:E.
  - apply existsb_exists in E. destruct E as ([s0|] & Hs0 & E); [|discriminate].
    destruct (chosen_best rs) as (i & s & Ec & Hb); eauto. unfold says_none, writes. rewrite Ec. split.
    + split; [intros X; apply Z.ltb_lt in X; lia|]. intros X. specialize (X _ Hs0). discriminate.
    + intros j. rewrite Z.eqb_eq. split.
      * intros X. apply Nat2Z.inj in X. subst j. eauto.
      * intros (t & H1 & H2 & H3). destruct Hb as (B1 & B2 & B3). f_equal.
        assert (s = t) as -> by (pose proof (H2 _ _ B1); pose proof (B2 _ _ H1); lia).
        pose proof (H3 _ B1). pose proof (B3 _ H1). lia.
  - assert (Hn : nobody rs).
    { intros [s|] Hr; auto. exfalso. assert (X : existsb (fun r : local => match r with Some _ => true | None => false end) rs = true)
        by (apply existsb_exists; exists (Some s); auto). congruence. }
    unfold says_none, writes. rewrite (chosen_none rs Hne Hn). split; [split; auto|].
    intros i. rewrite Z.eqb_eq. split; [lia|]. intros (s & H1 & _). apply nth_error_In in H1. specialize (Hn _ H1). discriminate.
Qed.
Print Assumptions C81_best_process_writes.

Example C81_example :
  (forall s, In (Some s) [None; Some 5; Some 3; None; Some 3]%nat -> (0 < s)%nat) /\
  writes [None; Some 5; Some 3; None; Some 3]%nat 2 = true /\ says_none [None; None] = true.
Proof. split; [|split; reflexivity]. simpl. intros s H. intuition (try discriminate); match goal with X : Some _ = Some _ |- _ => injection X as <-; lia end. Qed.

(** ** A solution without layers counts as none: the rank/shuffle search and the
    verification never set the number of layers, so that an MPI run of them always
    prints "No solution found", and one such process hides the solutions of all
    others. *)
Theorem C81_no_layers_hides_solutions_refuted :
  forall rs : list local, In (Some 0%nat) rs -> says_none rs = true /\ forall i, writes rs i = false.
Proof.
  intros rs H0. assert (E : chosen rs = -1).
  { unfold chosen. set (top := all_max (map sent rs)). set (again := map (sent_again top) rs).
    assert (Hne : again <> []) by (unfold again; destruct rs; [destruct H0|discriminate]).
    destruct (all_min_spec again Hne) as (M1 & M2).
    assert (X : In 0 again) by (apply (in_map (sent_again top)) in H0; exact H0). specialize (M2 _ X).
    assert (T : 0 <= top) by (apply all_max_spec; apply (in_map sent) in H0; exact H0).
    assert (0 <= all_min again).
    { unfold again in M1 at 2. apply in_map_iff in M1. destruct M1 as ([s|] & E & _); cbn [sent_again sent] in E; lia. }
    replace (all_min again =? 0) with true by (symmetry; apply Z.eqb_eq; lia). auto. }
  unfold says_none, writes. rewrite E. split; auto. intros i. apply Z.eqb_neq. lia.
Qed.
Print Assumptions C81_no_layers_hides_solutions_refuted.

(** Whatever the layers are, at most one process writes, and it has a solution. *)
Theorem C81_at_most_one_writes :
  forall (rs : list local) i, rs <> [] -> writes rs i = true ->
    (exists s, nth_error rs i = Some (Some s)) /\ forall j, writes rs j = true -> j = i.
Proof.
  intros rs i Hne Hw. split.
  - destruct (in_dec (fun a b : local => ltac:(decide equality; apply Nat.eq_dec)) (Some 0%nat) rs) as [H|H].
    + destruct (C81_no_layers_hides_solutions_refuted rs H) as (_ & X). rewrite X in Hw. discriminate.
    + destruct (C81_best_process_writes rs Hne) as (_ & X).
      { intros [|s] Hs; [contradiction|lia]. }
      apply X in Hw. destruct Hw as (s & Hs & _). eauto.
  - intros j. unfold writes in *. rewrite Z.eqb_eq in *. lia.
Qed.
Print Assumptions C81_at_most_one_writes.

(** ** Several files: the verdict is that some file stabilises, in whatever order
    they are done ... *)
Theorem C81_several_files :
  forall order, verify_files order = true <-> In Stabilizing order.
Proof.
  assert (H : forall order b, fold_left (fun found r => match r with Stabilizing => true | _ => found end) order b = true <->
    b = true \/ In Stabilizing order).
  { induction order as [|r order IH]; intros b; cbn [fold_left]; [simpl; tauto|]. rewrite IH. simpl.
    destruct r; split; intros; intuition (try discriminate; auto). }
  intros order. unfold verify_files. rewrite H. split; [intros [X|X]; [discriminate|auto]|auto].
Qed.
Print Assumptions C81_several_files.

(** ... so "Protocol is self-stabilizing!" is printed although a file is not, or
    cannot be read. *)
Theorem C81_bad_file_hidden_refuted :
  exists order, verify_files order = true /\ In NotStabilizing order /\ In Unreadable order.
Proof. exists [Unreadable; Stabilizing; NotStabilizing]. simpl. tauto. Qed.
Print Assumptions C81_bad_file_hidden_refuted.
