(** Actions as a table of bits: what the table says, and what is written for it. *)
From Coq Require Import String List Arith Bool ZArith Lia.
From Verif Require Import FmlaModel FmlaSpec IntModel ExprModel ExprSpec ActModel ActSpec ActProofs ActProofs4 NetModel CmdModel CmdSpec
  ParseModel ParseSpec ParseProofs ParseProofs2 ParseProofs3 ParseProofs4 AccessModel PrintModel PrintProofs PrintProofs4 ActProps PlaModel PlaSpec.
Import ListNotations.
Local Open Scope list_scope.

(** ** Lines *)
Lemma matches_nth : forall c x, matches c x <-> length c = length x /\ forall i, i < length c -> nth (nth i x 0) (nth i c []) false = true.
Proof.
  unfold matches. induction c as [|f c IH]; intros x; split; intros H.
  - inversion H; subst. split; auto. intros i I. simpl in I. lia.
  - destruct H as [H _]. destruct x; [constructor|discriminate].
  - inversion H as [|a n l l' A B]; subst. apply IH in B. destruct B as [L B]. split; [simpl; lia|]. intros [|i] I; simpl in *; auto. apply B. lia.
  - destruct H as [L H]. destruct x as [|n x]; [discriminate|]. constructor; [apply (H 0); simpl; lia|]. apply IH. split; [simpl in L; lia|]. intros i I. apply (H (S i)). simpl. lia.
Qed.
Lemma nth_map_seq : forall A (f : nat -> A) d n i, i < n -> nth i (map f (seq 0 n)) d = f i.
Proof. intros A f d n i I. rewrite nth_indep with (d' := f 0) by (rewrite map_length, seq_length; auto). rewrite map_nth, seq_nth by auto. reflexivity. Qed.
Lemma pla_val_nth : forall j d n, nth n (pla_val j d) false = true <-> n = j /\ j < d.
Proof.
  intros j d n. unfold pla_val. destruct (Nat.lt_ge_cases n d) as [L|L].
  - rewrite nth_map_seq by auto. rewrite Nat.eqb_eq. split; [intros ->; auto|tauto].
  - rewrite nth_overflow by (rewrite map_length, seq_length; auto). split; [discriminate|lia].
Qed.

Section Kind.
Variable K : pcsymm.
Hypothesis PLAIN : plain_kind K.
Lemma wmap_writables : wmap K = writables K.
Proof. reflexivity. Qed.
Lemma plain_at : forall i, i < nr K -> pure_shadow_ck (acc K i) = false /\ rdomsz (acc K i) = a_dom (acc K i) /\ (write_ck (acc K i) = true -> wdomsz (acc K i) = a_dom (acc K i)).
Proof.
  intros i I. destruct (PLAIN (acc K i)) as [(V1 & V2 & V3) R]; [apply nth_In; auto|]. destruct (acc K i) as [t r d]; simpl in *.
  destruct t, r; try contradiction; simpl; repeat split; auto; intros; discriminate.
Qed.
Lemma plain_cols : guard_cols K = seq 0 (nr K).
Proof.
  unfold guard_cols. rewrite <- (filter_ext_in (fun _ => true)).
  - induction (seq 0 (nr K)); simpl; congruence.
  - intros i I. apply in_seq in I. destruct (plain_at i ltac:(lia)) as [-> _]. reflexivity.
Qed.
Lemma plain_widths : pla_mv K = widths K.
Proof.
  unfold pla_mv, widths. rewrite plain_cols. f_equal.
  - change (accs K) with (accs K). rewrite <- (map_map (acc K) a_dom). f_equal. unfold nr. symmetry. rewrite <- (firstn_all (accs K)) at 1. rewrite (firstn_map_nth _ _ acc0) by lia. reflexivity.
  - rewrite <- wmap_writables. unfold nw, waccess. rewrite <- (map_map (fun w => nth w (wmap K) 0) (fun i => a_dom (acc K i))).
    f_equal. rewrite <- (firstn_map_nth _ (wmap K) 0) by lia. apply firstn_all.
Qed.
Lemma widths_length : length (widths K) = nr K + nw K.
Proof. unfold widths. rewrite app_length, !map_length. reflexivity. Qed.
Lemma row_widths : forall v, map (@length bool) (pla_act K v) = widths K.
Proof.
  intros v. rewrite <- plain_widths. unfold pla_act, pla_mv. rewrite map_app, !map_map. unfold pla_val. f_equal; apply map_ext; intros; rewrite map_length, seq_length; auto.
Qed.
Lemma row_matches : forall v x, action_values K v -> (matches (pla_act K v) x <-> x = v).
Proof.
  intros v x AV. apply valid_spec in AV. unfold valid in AV. apply Forall2_lt_nth in AV. rewrite doms_length in AV. destruct AV as [L AV]. rewrite matches_nth.
  assert (LP : length (pla_act K v) = nr K + nw K) by (rewrite <- (map_length (@length bool)), row_widths; apply widths_length).
  assert (E : forall i n, i < nr K + nw K -> nth n (nth i (pla_act K v) []) false = true <-> n = nth i v 0).
  { intros i n I. unfold pla_act. rewrite plain_cols. pose proof (AV i ltac:(lia)) as B. destruct (Nat.lt_ge_cases i (nr K)) as [J|J].
    - rewrite app_nth1 by (rewrite map_length, seq_length; auto). rewrite nth_map_seq by auto. rewrite pla_val_nth. unfold guard.
      rewrite doms_guard in B by auto. destruct (plain_at i J) as (_ & R & _). rewrite <- guard_values_eq, R in B. split; [tauto|]. intros ->. split; auto.
    - rewrite app_nth2 by (rewrite map_length, seq_length; auto). rewrite map_length, seq_length. rewrite nth_map_seq by lia. rewrite pla_val_nth.
      destruct (wmap_nth K (i - nr K)) as (P1 & P2 & P3); [lia|]. unfold assign. replace (nr K + (i - nr K)) with i by lia.
      replace i with (nr K + place K (nth (i - nr K) (wmap K) 0)) in B at 2 by (rewrite P3; lia). rewrite doms_assign in B by auto.
      destruct (plain_at _ P1) as (_ & _ & R). rewrite <- assign_values_eq, R in B by auto. unfold waccess. split; [tauto|]. intros ->. split; auto. }
  rewrite LP. split.
  - intros [A B]. apply nth_ext with (d := 0) (d' := 0); [lia|]. intros i I. apply E; [lia|]. apply B. lia.
  - intros ->. split; [lia|]. intros i I. apply E; auto.
Qed.
End Kind.

Lemma rows_matches : forall net k actions x, (forall pc, In pc net -> laid_out pc) -> plain_kind (nth k net pc0) ->
  (forall a, In a actions -> a < actions_in net /\ representative_action_index net a = Some a) ->
  ((exists c, In c (pla_rows net k actions) /\ matches c x) <-> of_solution net actions k x).
Proof.
  intros net k actions x LO PL REPS. unfold pla_rows, of_solution.
  assert (W : forall a, In a (written_acts net actions) <-> exists j r, In j actions /\ r < actions_in net /\ same_action_class net j r /\ act_of net r = a).
  { intros a. unfold written_acts. rewrite sort_in, in_map_iff. split.
    - intros (r & E & I). apply in_flat_map in I. destruct I as (j & J & I). destruct (REPS j J) as [B R]. apply (C40_represented net j j r LO B R) in I. exists j, r. tauto.
    - intros (j & r & J & B & S & E). exists r. split; auto. apply in_flat_map. exists j. split; auto. destruct (REPS j J) as [B' R]. apply (C40_represented net j j r LO B' R). auto. }
  split.
  - intros (c & I & M). apply in_map_iff in I. destruct I as (a & E & I). apply filter_In in I. destruct I as [I P]. apply Nat.eqb_eq in P. apply W in I. destruct I as (j & r & J & B & S & E').
    subst a c. exists j, r. split; auto. split; auto. split; auto. split; auto. symmetry. apply (row_matches (nth k net pc0)); auto. rewrite <- P. apply C39_decode. auto.
  - intros (j & r & J & B & S & P & E). exists (pla_act (nth k net pc0) x). split.
    + apply in_map_iff. exists (act_of net r). rewrite E. split; auto. apply filter_In. split; [|apply Nat.eqb_eq; auto]. apply W. exists j, r. auto.
    + apply row_matches; auto. rewrite <- E, <- P. apply C39_decode. auto.
Qed.

(** ** Clauses *)
Lemma ones_in : forall f n, In n (ones f) <-> nth n f false = true.
Proof.
  intros f n. unfold ones. rewrite filter_In, in_seq. split; [tauto|]. intros H. split; auto. split; [lia|]. destruct (Nat.lt_ge_cases n (length f)); auto. rewrite nth_overflow in H by auto. discriminate.
Qed.
Lemma ones_nodup : forall f, NoDup (ones f).
Proof. intros f. apply NoDup_filter, seq_NoDup. Qed.
Lemma filter_full : forall A (p : A -> bool) l, length (filter p l) = length l -> forall a, In a l -> p a = true.
Proof.
  induction l as [|b l IH]; intros H a I; [contradiction|]. simpl in H. destruct (p b) eqn:P.
  - simpl in H. destruct I as [<-|I]; auto.
  - exfalso. assert (Q : length (filter p l) <= length l) by (clear; induction l; simpl; [lia|]; destruct (p a); simpl; lia). lia.
Qed.
Lemma filter_all : forall A (p : A -> bool) l, (forall a, In a l -> p a = true) -> filter p l = l.
Proof. induction l as [|b l IH]; intros H; [reflexivity|]. simpl. rewrite (H b) by (left; auto). f_equal. apply IH. intros; apply H; right; auto. Qed.
Lemma ones_full : forall f, length (ones f) = length f <-> forall n, n < length f -> nth n f false = true.
Proof.
  intros f. unfold ones. split.
  - intros H n L. apply (filter_full _ (fun m => nth m f false) (seq 0 (length f))); [rewrite seq_length; auto|]. apply in_seq. lia.
  - intros H. rewrite filter_all; [apply seq_length|]. intros a I. apply in_seq in I. apply H. lia.
Qed.
(** All but one *)
Lemma ones_but_one : forall f j, length (ones f) = length f - 1 -> j < length f -> nth j f false = false ->
  forall n, n < length f -> (nth n f false = true <-> n <> j).
Proof.
  intros f j E J F n L. split; [intros H ->; congruence|]. intros NE. destruct (nth n f false) eqn:B; auto. exfalso.
  assert (X : length (ones f) + 2 <= length f).
  { assert (I : incl (j :: n :: ones f) (seq 0 (length f))).
    { intros a [<-|[<-|I]]; apply in_seq; [lia|lia|]. apply filter_In in I. destruct I as [I _]. apply in_seq in I. lia. }
    apply NoDup_incl_length in I; [rewrite seq_length in I; simpl in I; lia|].
    constructor; [intros [H|H]; [auto|apply ones_in in H; congruence]|]. constructor; [intros H; apply ones_in in H; congruence|]. apply ones_nodup. }
  lia.
Qed.
Lemma either_text : forall l x, either (x :: l) = x ++ concat (map (fun y => TOr :: y) l).
Proof. induction l as [|y l IH]; intros x; [simpl; rewrite app_nil_r; auto|]. cbn [either] in *. rewrite IH. simpl. reflexivity. Qed.

Definition is_val (x : sexp) (j : nat) : sexp := SCmp CEq x (SNat j).
Definition any_of (x : sexp) (l : list nat) : sexp :=
  match l with [] => SName "false" | j :: l' => fold_left (fun e n => SOr e (is_val x n)) l' (is_val x j) end.
Definition missing (f : bits) : nat := match find (fun j => negb (existsb (Nat.eqb j) (ones f))) (seq 0 (length f)) with Some j => j | None => 0 end.
Definition clause_tree (x : sexp) (f : bits) : option sexp :=
  if length (ones f) =? length f then None
  else Some (if (length (ones f) =? length f - 1) && (2 <? length f) then SCmp CNe x (SNat (missing f))
             else if 1 <? length (ones f) then SBool (any_of x (ones f)) else any_of x (ones f)).
Lemma missing_spec : forall f, length (ones f) <> length f -> missing f < length f /\ nth (missing f) f false = false /\
  find (fun j => negb (existsb (Nat.eqb j) (ones f))) (seq 0 (length f)) = Some (missing f).
Proof.
  intros f NE. unfold missing. destruct (find _ _) as [j|] eqn:F.
  - pose proof F as F'. apply find_some in F. destruct F as [A B]. apply in_seq in A. apply negb_true_iff in B. split; [lia|]. split; auto.
    destruct (nth j f false) eqn:Q; auto. apply ones_in in Q. assert (existsb (Nat.eqb j) (ones f) = true) by (apply existsb_exists; exists j; split; auto; apply Nat.eqb_refl). congruence.
  - exfalso. apply NE, ones_full. intros n L. pose proof (find_none _ _ F n ltac:(apply in_seq; lia)) as H. apply negb_false_iff, existsb_exists in H. destruct H as (m & M & E). apply Nat.eqb_eq in E. subst m. apply ones_in; auto.
Qed.
Lemma any_of_text : forall x l, l <> [] -> print (any_of x l) = either (map (fun j => print x ++ [TCmp CEq; TNat j]) l).
Proof.
  intros x [|j l] NE; [contradiction|]. clear NE. cbn [any_of map]. rewrite either_text.
  assert (H : forall l e, print (fold_left (fun e n => SOr e (is_val x n)) l e) = print e ++ concat (map (fun n => TOr :: print (is_val x n)) l)).
  { clear. induction l as [|n l IH]; intros e; cbn [fold_left map concat]; [rewrite app_nil_r; auto|]. rewrite IH. cbn [print]. rewrite <- !app_assoc. reflexivity. }
  rewrite H, map_map. reflexivity.
Qed.
Lemma some_one : forall f, In true f -> ones f <> [].
Proof. intros f H E. apply In_nth with (d := false) in H. destruct H as (n & L & B). apply ones_in in B. rewrite E in B. contradiction. Qed.
Lemma clause_print : forall x f, In true f -> clause_text x f = option_map print (clause_tree x f).
Proof.
  intros x f H. unfold clause_text, clause_tree. destruct (length (ones f) =? length f) eqn:E; [reflexivity|]. apply Nat.eqb_neq in E. simpl. f_equal.
  destruct ((length (ones f) =? length f - 1) && (2 <? length f)).
  - destruct (missing_spec f E) as (_ & _ & ->). reflexivity.
  - rewrite <- any_of_text by (apply some_one; auto). destruct (1 <? length (ones f)); [|reflexivity]. cbn [print]. reflexivity.
Qed.

(** Reading *)
Definition nice (names : list string) (e : sexp) : Prop := raw names e /\ iffs_apart e.
Section Names.
Variable names : list string.
Variable x : sexp.
Hypothesis NX : nice names x.
Hypothesis REF : exists a i, x = SAref a i.
Lemma is_val_nice : forall c j, (c = CEq \/ c = CNe) -> nice names (SCmp c x (SNat j)).
Proof. intros c j C. destruct NX as [A B]. destruct REF as (a & i & ->). unfold nice. simpl in *. destruct C; subst; repeat split; auto; lia. Qed.
Lemma any_of_nice : forall l, l <> [] -> nice names (any_of x l) /\ isint (any_of x l) = false /\ is_iff (any_of x l) = false /\ rank (any_of x l) <= 8 /\ (length l = 1 -> rank (any_of x l) <= 5).
Proof.
  intros [|j l] NE; [contradiction|]. clear NE. cbn [any_of]. destruct REF as (a & i & EX).
  assert (G : forall l e, nice names e -> isint e = false -> is_iff e = false -> rank e <= 8 -> open e = false ->
    let r := fold_left (fun e n => SOr e (is_val x n)) l e in nice names r /\ isint r = false /\ is_iff r = false /\ rank r <= 8).
  { clear l j. induction l as [|n l IH]; intros e N IT IF RK OP; cbn [fold_left]; [auto|]. apply IH; try reflexivity.
    - destruct (is_val_nice CEq n (or_introl eq_refl)) as [T1 T2]. destruct N as [N1 N2]. split.
      + cbn [raw]. split; auto. split; auto. split; [unfold fit; destruct e; auto; discriminate|]. split; [simpl; lia|auto].
      + cbn [iffs_apart]. split; [exact IF|]. split; [reflexivity|]. auto. }
  destruct (G l (is_val x j)) as (A & B & C & D); try reflexivity.
  - apply is_val_nice; auto.
  - simpl. lia.
  - split; auto. split; auto. split; auto. split; auto. intros L. destruct l; [simpl; lia|discriminate].
Qed.
Lemma clause_nice : forall f e, In true f -> clause_tree x f = Some e -> nice names e /\ rank e <= 5 /\ is_iff e = false /\ open e = false.
Proof.
  intros f e H E. unfold clause_tree in E. destruct (length (ones f) =? length f); [discriminate|]. injection E as <-. destruct (any_of_nice (ones f) (some_one f H)) as (A & B & C & D & F).
  destruct ((length (ones f) =? length f - 1) && (2 <? length f)); [split; [apply is_val_nice; auto|split; [simpl; lia|split; reflexivity]]|].
  destruct (1 <? length (ones f)) eqn:L.
  - split; [|split; [simpl; lia|split; reflexivity]]. destruct A. split; simpl; auto.
  - apply Nat.ltb_ge in L. assert (Q : length (ones f) = 1) by (pose proof (some_one f H); destruct (ones f); [contradiction|simpl in *; lia]). specialize (F Q).
    split; auto. split; auto. split; auto. apply rank_open; auto.
Qed.
End Names.

(** Meaning *)
Section Truth.
Variables (G : scope) (b : imap) (s : list nat) (a : string) (i : sexp) (v : nat).
Hypothesis CELL : cell G b a i s = Some v.
Lemma value_ref : value_of G b (SAref a i) s = Some (Z.of_nat (nth v s 0)).
Proof. unfold cell in CELL. simpl. destruct (value_of G b i s) as [k|]; [|discriminate]. destruct (assoc a (g_arrays G)) as [l|]; [|discriminate]. rewrite CELL. reflexivity. Qed.
Lemma cmp_truth : forall c j, truth G b (SCmp c (SAref a i) (SNat j)) s = Some (compares c (Z.of_nat (nth v s 0)) (Z.of_nat j)).
Proof.
  intros c j. change (truth G b (SCmp c (SAref a i) (SNat j)) s) with (match value_of G b (SAref a i) s, value_of G b (SNat j) s with Some x, Some y => Some (compares c x y) | _, _ => None end).
  rewrite value_ref. reflexivity.
Qed.
Lemma is_val_truth : forall j, truth G b (is_val (SAref a i) j) s = Some (nth v s 0 =? j).
Proof.
  intros j. unfold is_val. rewrite cmp_truth. f_equal. unfold compares. destruct (Z.eq_dec _ _), (Nat.eqb_spec (nth v s 0) j); auto; lia.
Qed.
Lemma any_of_truth : forall l, l <> [] -> truth G b (any_of (SAref a i) l) s = Some (existsb (Nat.eqb (nth v s 0)) l).
Proof.
  intros [|j l] NE; [contradiction|]. clear NE. cbn [any_of existsb].
  assert (H : forall l e q, truth G b e s = Some q -> truth G b (fold_left (fun e n => SOr e (is_val (SAref a i) n)) l e) s = Some (q || existsb (Nat.eqb (nth v s 0)) l)).
  { clear l j. induction l as [|n l IH]; intros e q E; cbn [fold_left existsb]; [rewrite orb_false_r; auto|]. rewrite orb_assoc. apply IH. cbn [truth]. rewrite E. destruct q; [reflexivity|]. rewrite is_val_truth. reflexivity. }
  apply H, is_val_truth.
Qed.
Lemma clause_truth : forall f, In true f -> nth v s 0 < length f ->
  match clause_tree (SAref a i) f with Some e => truth G b e s = Some (nth (nth v s 0) f false) | None => nth (nth v s 0) f false = true end.
Proof.
  intros f H L. unfold clause_tree. destruct (Nat.eqb_spec (length (ones f)) (length f)) as [E|E]; [apply ones_full; auto|].
  assert (Q : existsb (Nat.eqb (nth v s 0)) (ones f) = nth (nth v s 0) f false).
  { apply eq_true_iff_eq. rewrite existsb_exists. split.
    - intros (m & M & X). apply Nat.eqb_eq in X. subst m. apply ones_in; auto.
    - intros X. exists (nth v s 0). split; [apply ones_in; auto|apply Nat.eqb_refl]. }
  destruct (Nat.eqb_spec (length (ones f)) (length f - 1)) as [O|O]; simpl; [destruct (Nat.ltb_spec 2 (length f)) as [T|T]|].
  - destruct (missing_spec f E) as (M1 & M2 & _). change (truth G b (SCmp CNe (SAref a i) (SNat (missing f))) s = Some (nth (nth v s 0) f false)). rewrite cmp_truth. f_equal. pose proof (ones_but_one f (missing f) O M1 M2 _ L) as B. unfold compares.
    destruct (Z.eq_dec (Z.of_nat (nth v s 0)) (Z.of_nat (missing f))) as [X|X]; destruct (nth (nth v s 0) f false) eqn:Y; auto.
    + exfalso. apply (proj1 B); auto; lia.
    + exfalso. assert (false = true); [|discriminate]. apply B. lia.
  - destruct (1 <? length (ones f)); cbn [truth]; rewrite any_of_truth, Q by (apply some_one; auto); reflexivity.
  - destruct (1 <? length (ones f)); cbn [truth]; rewrite any_of_truth, Q by (apply some_one; auto); reflexivity.
Qed.
End Truth.
