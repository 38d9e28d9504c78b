(** Actions as a table of bits: lines that are read back. *)
From Coq Require Import String List Arith Bool ZArith Lia.
From Verif Require Import FmlaModel FmlaSpec IntModel ExprModel ExprSpec ActModel ActSpec ActProofs ActProofs4 NetModel CmdModel CmdSpec
  ParseModel ParseSpec ParseProofs ParseProofs2 ParseProofs3 ParseProofs4 AccessModel PrintModel PrintProofs PrintProofs4 ActProps PlaModel PlaSpec PlaProofs.
Import ListNotations.
Local Open Scope list_scope.

Lemma all_some_iff : forall A (l : list (option A)) r, all_some l = Some r <-> l = map Some r.
Proof.
  induction l as [|o l IH]; intros r; simpl.
  - split; [intros H; injection H as <-; reflexivity|]. intros H. destruct r; [reflexivity|discriminate].
  - destruct o as [a|]; [|split; [discriminate|intros H; destruct r; discriminate]]. destruct (all_some l) as [q|] eqn:E.
    + split; [intros H; injection H as <-; simpl; f_equal; apply IH; auto|]. intros H. destruct r as [|c r]; [discriminate|]. injection H as -> H. apply IH in H. congruence.
    + split; [discriminate|]. intros H. destruct r as [|c r]; [discriminate|]. injection H as _ H. apply IH in H. discriminate.
Qed.
Lemma keep_some_in : forall A (l : list (option A)) a, In a (keep_some l) <-> In (Some a) l.
Proof.
  induction l as [|o l IH]; intros a; simpl; [tauto|]. unfold keep_some in *. simpl. rewrite in_app_iff, IH. destruct o; simpl; split; intros [H|H]; auto; try tauto; try discriminate.
  - destruct H; [subst; auto|contradiction].
  - injection H as ->. auto.
Qed.
Lemma keep_some_map : forall A B (f : A -> B) l, keep_some (map (option_map f) l) = map f (keep_some l).
Proof. intros A B f l. unfold keep_some. induction l as [|[a|] l IH]; simpl; auto. f_equal; auto. Qed.

Definition all_of (l : list sexp) : sexp := match l with [] => SName "true" | e :: l' => fold_left SAnd l' e end.
Lemma all_of_text : forall l, l <> [] -> print (all_of l) = joined (map print l).
Proof.
  intros [|e l] NE; [contradiction|]. clear NE. cbn [all_of map]. rewrite joined_text, map_map. revert e.
  induction l as [|x l IH]; intros e; cbn [fold_left map concat]; [rewrite app_nil_r; auto|]. rewrite IH. cbn [print]. rewrite <- !app_assoc. reflexivity.
Qed.
Lemma all_of_nice : forall names l, l <> [] -> (forall e, In e l -> nice names e /\ rank e <= 5 /\ is_iff e = false /\ open e = false) -> nice names (all_of l).
Proof.
  intros names [|e l] NE H; [contradiction|]. clear NE. cbn [all_of].
  assert (G : forall l e, (forall x, In x l -> nice names x /\ rank x <= 5 /\ is_iff x = false /\ open x = false) -> nice names e -> rank e <= 7 -> is_iff e = false -> open e = false -> nice names (fold_left SAnd l e)).
  { clear. induction l as [|x l IH]; intros e H N RK IF OP; [auto|]. cbn [fold_left]. destruct (H x (or_introl eq_refl)) as (N' & RK' & IF' & OP').
    apply IH; [intros; apply H; right; auto| |simpl; lia|reflexivity|exact OP']. destruct N as [N1 N2], N' as [N3 N4]. split.
    - cbn [raw]. split; auto. split; auto. split; [unfold fit; destruct e; auto; discriminate|]. split; auto. unfold fit. destruct x; try discriminate IF'; eapply Nat.le_trans; try eassumption; lia.
    - cbn [iffs_apart]. auto. }
  destruct (H e (or_introl eq_refl)) as (N' & RK' & IF' & OP'). apply G; auto. intros; apply H; right; auto.
Qed.
Lemma all_of_truth : forall G b s l, l <> [] -> (truth G b (all_of l) s = Some true <-> forall e, In e l -> truth G b e s = Some true).
Proof.
  intros G b s [|e l] NE; [contradiction|]. clear NE. cbn [all_of]. revert e. induction l as [|x l IH]; intros e; cbn [fold_left].
  - split; [intros H y [<-|[]]; auto|intros H; apply H; left; auto].
  - rewrite IH. split.
    + intros H. pose proof (H (SAnd e x) (or_introl eq_refl)) as A. cbn [truth] in A. destruct (truth G b e s) as [[|]|] eqn:E; try discriminate.
      intros y [<-|[<-|I]]; auto. apply H. right; auto.
    + intros H y [<-|I]; [|apply H; right; right; auto]. cbn [truth]. rewrite (H e) by (left; auto). apply H. right; left; auto.
Qed.

Section Kind.
Variable names : list string.
Variable K : pcsymm.
Hypothesis PLAIN : plain_kind K.
Variable sls : list slot.
Hypothesis LEN : length sls = nr K.
Hypothesis READ : readable names sls.
Lemma slot_nice : forall i, i < nr K -> nice names (sl_text (nth i sls slot0)).
Proof.
  intros i I. unfold readable in READ. rewrite Forall_forall in READ. destruct (READ (nth i sls slot0)) as [(ts & T) A]; [apply nth_In; lia|]. split; auto.
  apply read_expr_take in T. apply read_raw in T. exact T.
Qed.
Lemma name_nice : forall i, i < nr K -> nice names (vbl_name sls i).
Proof. intros i I. destruct (slot_nice i I). split; simpl; auto. Qed.

Definition the_clauses (c : list bits) : list sexp := keep_some (map (fun i => clause_tree (vbl_name sls i) (nth i c [])) (seq 0 (nr K))).
Definition value_at (c : list bits) (w : nat) : nat := hd 0 (ones (nth (nr K + w) c [])).
Definition set_at (w n : nat) : assignment := ASet (sl_array (nth (nth w (wmap K) 0) sls slot0)) (sl_text (nth (nth w (wmap K) 0) sls slot0)) (Some (SNat n)).
Definition the_line (c : list bits) : action := mkAction false (all_of (the_clauses c)) (map (fun w => set_at w (value_at c w)) (seq 0 (nw K))).

Section Cube.
Variable c : list bits.
Hypothesis WID : map (@length bool) c = widths K.
Hypothesis SOME : forall f, In f c -> In true f.
Lemma cube_length : length c = nr K + nw K.
Proof. rewrite <- (map_length (@length bool)), WID. apply widths_length. Qed.
Lemma field_some : forall i, i < nr K + nw K -> In true (nth i c []).
Proof. intros i I. apply SOME, nth_In. rewrite cube_length. auto. Qed.
Lemma field_length : forall i, i < nr K -> length (nth i c []) = a_dom (acc K i).
Proof.
  intros i I. change (length (nth i c [])) with ((@length bool) (nth i c [])). rewrite <- (map_nth (@length bool)), WID. unfold widths. rewrite app_nth1 by (rewrite map_length; auto).
  change (length (@nil bool)) with (a_dom acc0). rewrite map_nth. reflexivity.
Qed.
Lemma line_shape : forall ts, cube_text K sls c = Some ts ->
  (forall w, w < nw K -> ones (nth (nr K + w) c []) = [value_at c w]) /\
  ts = TLp :: joined (map print (the_clauses c)) ++ (if nw K =? 0 then [] else [TTo]) ++ concat (map print_assign (a_assigns (the_line c))) ++ [TRp].
Proof.
  intros ts H. unfold cube_text in H. rewrite (plain_cols K PLAIN), seq_length in H. destruct (Nat.ltb_spec (length c) (nr K + nw K)) as [L|L]; [discriminate|].
  destruct (all_some _) as [l|] eqn:E; [|discriminate]. apply all_some_iff in E. injection H as <-.
  assert (O : forall w, w < nw K -> ones (nth (nr K + w) c []) = [value_at c w]).
  { intros w W. assert (Q : In (set_text (vbl_name sls (nth w (wmap K) 0)) (nth (nr K + w) c [])) (map Some l)) by (rewrite <- E; apply in_map_iff; exists w; split; auto; apply in_seq; lia).
    apply in_map_iff in Q. destruct Q as (q & Q & _). unfold set_text in Q. unfold value_at. destruct (ones (nth (nr K + w) c [])) as [|j [|]]; try discriminate. reflexivity. }
  split; auto. f_equal. f_equal.
  - f_equal. unfold the_clauses. rewrite <- keep_some_map, map_map. f_equal. apply map_ext_in. intros i I. apply in_seq in I. rewrite seq_nth by lia. simpl. apply clause_print. apply field_some. lia.
  - f_equal. f_equal. f_equal. cbn [a_assigns the_line]. rewrite map_map.
    assert (X : map Some l = map Some (map (fun w => print_assign (set_at w (value_at c w))) (seq 0 (nw K)))).
    { rewrite <- E, map_map. apply map_ext_in. intros w W. apply in_seq in W. unfold set_text. rewrite O by lia. unfold set_at, print_assign. reflexivity. }
    clear -X. revert X. generalize (map (fun w => print_assign (set_at w (value_at c w))) (seq 0 (nw K))). induction l as [|x l IH]; intros [|y r] X; try discriminate; auto. injection X as -> X. f_equal; auto.
Qed.
Lemma clauses_nice : forall e, In e (the_clauses c) -> nice names e /\ rank e <= 5 /\ is_iff e = false /\ open e = false.
Proof.
  intros e I. unfold the_clauses in I. apply keep_some_in, in_map_iff in I. destruct I as (i & E & I). apply in_seq in I. apply (clause_nice names (vbl_name sls i)) with (f := nth i c []); auto.
  - apply name_nice. lia.
  - eexists _, _. reflexivity.
  - apply field_some. lia.
Qed.
Lemma line_read : forall ts, cube_text K sls c = Some ts -> the_clauses c <> [] -> nw K <> 0 -> read_action names ts = Some (the_line c).
Proof.
  intros ts H NE NW. destruct (line_shape ts H) as [O ->]. destruct (Nat.eqb_spec (nw K) 0); [contradiction|]. rewrite <- all_of_text by auto.
  change (TLp :: print (all_of (the_clauses c)) ++ [TTo] ++ concat (map print_assign (a_assigns (the_line c))) ++ [TRp]) with (print_action (the_line c)).
  assert (A : forall a, In a (a_assigns (the_line c)) -> raw_assign names a /\ apart_assign a).
  { intros a I. cbn [a_assigns the_line] in I. apply in_map_iff in I. destruct I as (w & <- & I). apply in_seq in I. destruct (wmap_nth K w ltac:(lia)) as (J & _ & _). destruct (slot_nice _ J). unfold set_at, raw_assign, apart_assign. simpl. auto. }
  destruct (all_of_nice names (the_clauses c) NE clauses_nice) as [G1 G2].
  apply action_back; [exact G1|apply Forall_forall; intros; apply A; auto|]. split; [exact G2|apply Forall_forall; intros; apply A; auto].
Qed.
Lemma line_sets : forall ts w, cube_text K sls c = Some ts -> length w = nw K ->
  (a_assigns (the_line c) = sets K sls w <-> forall j, j < nw K -> nth (nth j w 0) (nth (nr K + j) c []) false = true).
Proof.
  intros ts w H L. destruct (line_shape ts H) as [O _].
  assert (E : sets K sls w = map (fun j => set_at j (nth j w 0)) (seq 0 (nw K))).
  { unfold sets. rewrite <- wmap_writables. change (mkSlot ReadAccess "" (SNat 0) (SNat 0)) with slot0. apply nth_ext with (d := AKeepRest) (d' := AKeepRest).
    - rewrite !map_length, seq_length, combine_length. unfold nw in *. lia.
    - rewrite map_length, combine_length. intros j J. rewrite nth_map_seq by (unfold nw in *; lia).
      rewrite nth_indep with (d' := (fun p => ASet (sl_array (nth (fst p) sls slot0)) (sl_text (nth (fst p) sls slot0)) (Some (SNat (snd p)))) (0, 0)) by (rewrite map_length, combine_length; lia).
      rewrite (map_nth (fun p => ASet (sl_array (nth (fst p) sls slot0)) (sl_text (nth (fst p) sls slot0)) (Some (SNat (snd p))))), combine_nth by (unfold nw in *; lia). reflexivity. }
  rewrite E. cbn [a_assigns the_line]. split.
  - intros Q j J. pose proof (f_equal (fun l => nth j l AKeepRest) Q) as R. simpl in R. rewrite !nth_map_seq in R by auto. injection R as R. rewrite <- R. apply ones_in. rewrite O by auto. left; auto.
  - intros Q. apply map_ext_in. intros j J. apply in_seq in J. specialize (Q j ltac:(lia)). apply ones_in in Q. rewrite O in Q by lia. destruct Q as [->|[]]. reflexivity.
Qed.
Lemma line_guard : forall G b s (at_ : nat -> nat), the_clauses c <> [] ->
  (forall i, i < nr K -> cell G b (sl_array (nth i sls slot0)) (sl_text (nth i sls slot0)) s = Some (at_ i) /\ nth (at_ i) s 0 < a_dom (acc K i)) ->
  (truth G b (a_guard (the_line c)) s = Some true <-> forall i, i < nr K -> nth (nth (at_ i) s 0) (nth i c []) false = true).
Proof.
  intros G b s at_ NE CELL. cbn [a_guard the_line]. rewrite all_of_truth by auto.
  assert (T : forall i, i < nr K -> match clause_tree (vbl_name sls i) (nth i c []) with Some e => truth G b e s = Some (nth (nth (at_ i) s 0) (nth i c []) false) | None => nth (nth (at_ i) s 0) (nth i c []) false = true end).
  { intros i I. destruct (CELL i I) as [C B]. apply (clause_truth G b s _ _ _ C); [apply field_some; lia|]. rewrite field_length by auto. exact B. }
  split.
  - intros H i I. pose proof (T i I) as X. destruct (clause_tree (vbl_name sls i) (nth i c [])) as [e|] eqn:E; auto. rewrite H in X; [congruence|].
    unfold the_clauses. apply keep_some_in, in_map_iff. exists i. split; auto. apply in_seq. lia.
  - intros H e I. unfold the_clauses in I. apply keep_some_in, in_map_iff in I. destruct I as (i & E & I). apply in_seq in I. pose proof (T i ltac:(lia)) as X. rewrite E in X. rewrite X, H by lia. reflexivity.
Qed.
(** A line without a clause stands for an action that changes nothing. *)
Lemma open_line : forall ts, cube_text K sls c = Some ts -> the_clauses c = [] \/ nw K = 0 -> exists x, matches c x /\ ~ changes K x.
Proof.
  intros ts H OP. destruct (line_shape ts H) as [O _].
  assert (ONE : forall i, i < nr K + nw K -> nth (hd 0 (ones (nth i c []))) (nth i c []) false = true).
  { intros i I. apply ones_in. pose proof (some_one _ (field_some i I)). destruct (ones (nth i c [])); [contradiction|left; auto]. }
  pose (g := fun i => if wck K i then value_at c (place K i) else hd 0 (ones (nth i c []))).
  pose (x := map g (seq 0 (nr K)) ++ map (value_at c) (seq 0 (nw K))). exists x.
  assert (LX : length x = nr K + nw K) by (unfold x; rewrite app_length, !map_length, !seq_length; auto).
  assert (X1 : forall i, i < nr K -> nth i x 0 = g i) by (intros i I; unfold x; rewrite app_nth1 by (rewrite map_length, seq_length; auto); apply nth_map_seq; auto).
  assert (X2 : forall w, w < nw K -> nth (nr K + w) x 0 = value_at c w).
  { intros w W. unfold x. rewrite app_nth2 by (rewrite map_length, seq_length; lia). rewrite map_length, seq_length. replace (nr K + w - nr K) with w by lia. apply nth_map_seq; auto. }
  assert (FW : forall w, w < nw K -> length (nth (nr K + w) c []) = a_dom (acc K (nth w (wmap K) 0))).
  { intros w W. rewrite <- (map_nth (@length bool)), WID. unfold widths. rewrite app_nth2 by (rewrite map_length; unfold nr; lia). rewrite map_length. unfold nr. replace (length (accs K) + w - length (accs K)) with w by lia.
    rewrite nth_indep with (d' := (fun i => a_dom (nth i (accs K) acc0)) 0) by (rewrite map_length; rewrite <- wmap_writables; auto).
    rewrite (map_nth (fun i => a_dom (nth i (accs K) acc0))). reflexivity. }
  split.
  - apply matches_nth. rewrite cube_length. split; [auto|]. intros i I. destruct (Nat.lt_ge_cases i (nr K)) as [J|J].
    + rewrite X1 by auto. unfold g. destruct (wck K i) eqn:W; [|apply ONE; auto]. destruct OP as [OP|OP].
      * assert (F : clause_tree (vbl_name sls i) (nth i c []) = None).
        { destruct (clause_tree (vbl_name sls i) (nth i c [])) as [e|] eqn:E; auto. exfalso. assert (In e (the_clauses c)) by (unfold the_clauses; apply keep_some_in, in_map_iff; exists i; split; auto; apply in_seq; lia). rewrite OP in *. contradiction. }
        unfold clause_tree in F. destruct (Nat.eqb_spec (length (ones (nth i c []))) (length (nth i c []))) as [E|E]; [|discriminate]. apply (proj1 (ones_full _) E).
        rewrite field_length by auto. destruct (nth_place K i J W) as [P1 P2]. pose proof (FW _ P1) as L. rewrite P2 in L. rewrite <- L.
        assert (Q : In (value_at c (place K i)) (ones (nth (nr K + place K i) c []))) by (rewrite O by auto; left; auto). unfold ones in Q. apply filter_In in Q. destruct Q as [Q _]. apply in_seq in Q. lia.
      * exfalso. destruct (nth_place K i J W). lia.
    + replace i with (nr K + (i - nr K)) by lia. rewrite X2 by lia. apply ones_in. rewrite O by lia. left; auto.
  - intros (i & I & W & NE). apply writable_ck in W. destruct (nth_place K i I W) as [P1 P2]. apply NE. unfold tested, assigned. change (length (accs K)) with (nr K) in *. rewrite X1, X2 by auto. unfold g. unfold wck, acc. rewrite W. reflexivity.
Qed.
End Cube.
End Kind.
