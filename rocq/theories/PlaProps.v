(** C96: a solution that is written by way of a table of bits is the same solution. *)
From Coq Require Import String List Arith Bool ZArith Lia.
From Verif Require Import FmlaModel FmlaSpec IntModel ExprModel ExprSpec ActModel ActSpec ActProofs ActProofs4 NetModel CmdModel CmdSpec
  ParseModel ParseSpec AccessModel PrintModel ActProps PlaModel PlaSpec PlaProofs PlaProofs2.
Import ListNotations.
Local Open Scope string_scope.
Local Open Scope list_scope.
Local Open Scope nat_scope.

(** The lines of the table stand for the actions of the solution, if processes see what they access and do not write at random.
    The fields have the announced sizes, which are those of the variables. *)
Theorem C96_table : forall net k actions, (forall pc, In pc net -> laid_out pc) -> plain_kind (nth k net pc0) ->
  (forall a, In a actions -> a < actions_in net /\ representative_action_index net a = Some a) ->
  pla_mv (nth k net pc0) = widths (nth k net pc0) /\
  (forall c, In c (pla_rows net k actions) -> map (@length bool) c = widths (nth k net pc0)) /\
  forall x, (exists c, In c (pla_rows net k actions) /\ matches c x) <-> of_solution net actions k x.
Proof.
  intros net k actions LO PL REPS. split; [apply plain_widths; auto|]. split; [|intros x; apply rows_matches; auto].
  intros c I. unfold pla_rows in I. apply in_map_iff in I. destruct I as (a & <- & _). apply row_widths; auto.
Qed.
Print Assumptions C96_table.

(** One line that is written as an action: the text is read back, its guard is true where every variable has a value with a 1 in
    its field, and it assigns the values with a 1. *)
Theorem C96_line : forall names K sls c ts, plain_kind K -> length sls = length (accs K) -> readable names sls ->
  map (@length bool) c = widths K -> (forall f, In f c -> In true f) -> cube_text K sls c = Some ts ->
  (forall x, matches c x -> changes K x) ->
  exists a, read_action names ts = Some a /\ forall G b s at_ w, length w = length (writables K) ->
    (forall i, i < length (accs K) -> cell G b (sl_array (nth i sls slot0)) (sl_text (nth i sls slot0)) s = Some (at_ i) /\
       nth (at_ i) s 0 < a_dom (nth i (accs K) acc0)) ->
    (truth G b (a_guard a) s = Some true /\ a_assigns a = sets K sls w <->
     matches c (map (fun i => nth (at_ i) s 0) (seq 0 (length (accs K))) ++ w)).
Proof.
  intros names K sls c ts PL LEN RD WID SOM TXT CH.
  assert (OP : the_clauses K sls c <> [] /\ nw K <> 0).
  { split; intros X; destruct (open_line K PL sls LEN c WID SOM ts TXT ltac:(auto)) as (x & M & Q); apply Q, CH, M. }
  destruct OP as [NE NW]. exists (the_line K sls c). split; [apply (line_read names K PL sls LEN RD c WID SOM ts TXT NE NW)|].
  intros G b s at_ w LW CELL. change (length (writables K)) with (nw K) in LW. change (length (accs K)) with (nr K) in *.
  rewrite (line_guard K sls LEN c WID SOM G b s at_ NE CELL), (line_sets K PL sls LEN c WID SOM ts w TXT LW), matches_nth, (cube_length K c WID), app_length, map_length, seq_length.
  split.
  - intros [A B]. split; [lia|]. intros i I. destruct (Nat.lt_ge_cases i (nr K)) as [J|J].
    + rewrite app_nth1 by (rewrite map_length, seq_length; auto). rewrite nth_map_seq by auto. auto.
    + rewrite app_nth2 by (rewrite map_length, seq_length; auto). rewrite map_length, seq_length. specialize (B (i - nr K) ltac:(lia)). replace (nr K + (i - nr K)) with i in B by lia. exact B.
  - intros [_ A]. split.
    + intros i I. specialize (A i ltac:(lia)). rewrite app_nth1 in A by (rewrite map_length, seq_length; auto). rewrite nth_map_seq in A by auto. exact A.
    + intros j J. specialize (A (nr K + j) ltac:(lia)). rewrite app_nth2 in A by (rewrite map_length, seq_length; lia). rewrite map_length, seq_length in A. replace (nr K + j - nr K) with j in A by lia. exact A.
Qed.
Print Assumptions C96_line.

(** Whatever lines are answered, if they say the same as the table and all can be written, then the written actions are read back and
    are those of the solution. *)
Theorem C96_solution : forall names net k sls actions cs lines, (forall pc, In pc net -> laid_out pc) -> plain_kind (nth k net pc0) ->
  (forall a, In a actions -> a < actions_in net /\ representative_action_index net a = Some a) ->
  (forall v, of_solution net actions k v -> changes (nth k net pc0) v) ->
  length sls = length (accs (nth k net pc0)) -> readable names sls ->
  same_table (widths (nth k net pc0)) (pla_rows net k actions) cs -> cubes_text (nth k net pc0) sls cs = Some lines ->
  exists l, Forall2 (fun ts a => read_action names ts = Some a) lines l /\
  forall G b s at_ w, length w = length (writables (nth k net pc0)) ->
    (forall i, i < length (accs (nth k net pc0)) -> cell G b (sl_array (nth i sls slot0)) (sl_text (nth i sls slot0)) s = Some (at_ i) /\
       nth (at_ i) s 0 < a_dom (nth i (accs (nth k net pc0)) acc0)) ->
    ((exists a, In a l /\ truth G b (a_guard a) s = Some true /\ a_assigns a = sets (nth k net pc0) sls w) <->
     of_solution net actions k (map (fun i => nth (at_ i) s 0) (seq 0 (length (accs (nth k net pc0)))) ++ w)).
Proof.
  intros names net k sls actions cs lines LO PL REPS CH LEN RD [WID SOM SAME] TXT. set (K := nth k net pc0) in *. unfold cubes_text in TXT. apply all_some_iff in TXT.
  assert (CH' : forall c, In c cs -> forall x, matches c x -> changes K x).
  { intros c I x M. apply CH. apply (rows_matches net k actions x LO PL REPS). apply SAME. eauto. }
  assert (E : exists l, Forall2 (fun ts a => read_action names ts = Some a) lines l /\
    Forall2 (fun c a => forall G b s at_ w, length w = length (writables K) ->
      (forall i, i < length (accs K) -> cell G b (sl_array (nth i sls slot0)) (sl_text (nth i sls slot0)) s = Some (at_ i) /\ nth (at_ i) s 0 < a_dom (nth i (accs K) acc0)) ->
      (truth G b (a_guard a) s = Some true /\ a_assigns a = sets K sls w <-> matches c (map (fun i => nth (at_ i) s 0) (seq 0 (length (accs K))) ++ w))) cs l).
  { clear SAME. revert lines TXT. induction cs as [|c cs IH]; intros lines TXT; destruct lines as [|ts lines]; try discriminate.
    - exists []. split; constructor.
    - cbn [map] in TXT. injection TXT as T TXT. destruct (IH ltac:(intros; apply WID; right; auto) ltac:(intros d f I; apply SOM; right; auto) ltac:(intros d I; apply CH'; right; auto) lines TXT) as (l & A & B).
      destruct (C96_line names K sls c ts PL LEN RD (WID c (or_introl eq_refl)) (fun f => SOM c f (or_introl eq_refl)) T (CH' c (or_introl eq_refl))) as (a & R & M).
      exists (a :: l). split; constructor; auto. }
  destruct E as (l & A & B). exists l. split; auto. intros G b s at_ w LW CELL. rewrite <- (rows_matches net k actions _ LO PL REPS), <- SAME. split.
  - intros (a & I & M). clear -B I M LW CELL. induction B as [|c a' cs l Q B IH]; [contradiction|]. destruct I as [<-|I].
    + exists c. split; [left; auto|]. apply (Q G b s at_ w LW CELL); auto.
    + destruct (IH I) as (d & D & E). exists d. split; auto. right; auto.
  - intros (c & I & M). clear -B I M LW CELL. induction B as [|c' a cs l Q B IH]; [contradiction|]. destruct I as [<-|I].
    + exists a. split; [left; auto|]. apply (Q G b s at_ w LW CELL); auto.
    + destruct (IH I) as (d & D & E). exists d. split; auto. right; auto.
Qed.
Print Assumptions C96_solution.

(** When a line cannot be written: a field is missing, or an assigned variable has not exactly one value with a 1. *)
Theorem C96_stops : forall K sls c, plain_kind K -> map (@length bool) c = widths K ->
  (cube_text K sls c <> None <-> forall j, j < length (writables K) -> exists n, forall m, nth m (nth (length (accs K) + j) c []) false = true <-> m = n).
Proof.
  intros K sls c PL WID. change (length (writables K)) with (nw K). change (length (accs K)) with (nr K). unfold cube_text. rewrite (plain_cols K PL), seq_length, (cube_length K c WID), Nat.ltb_irrefl.
  destruct (all_some _) as [l|] eqn:E.
  - split; [intros _ j J|discriminate]. apply all_some_iff in E.
    assert (Q : In (set_text (vbl_name sls (nth j (wmap K) 0)) (nth (nr K + j) c [])) (map Some l)) by (rewrite <- E; apply in_map_iff; exists j; split; auto; apply in_seq; lia).
    apply in_map_iff in Q. destruct Q as (q & Q & _). unfold set_text in Q. destruct (ones (nth (nr K + j) c [])) as [|n [|]] eqn:O; try discriminate. exists n. intros m. rewrite <- ones_in, O. simpl. split; [intros [X|[]]; auto|auto].
  - split; [contradiction|]. intros H. exfalso.
    assert (X : exists r, all_some (map (fun w => set_text (vbl_name sls (nth w (wmap K) 0)) (nth (nr K + w) c [])) (seq 0 (nw K))) = Some r).
    { clear E. assert (B : forall w, In w (seq 0 (nw K)) -> w < nw K) by (intros w I; apply in_seq in I; lia). revert B. induction (seq 0 (nw K)) as [|w r IH]; intros B; [exists []; reflexivity|]. cbn [map all_some].
      destruct (H w (B w (or_introl eq_refl))) as (n & Q). assert (O : ones (nth (nr K + w) c []) = [n]).
      { pose proof (ones_nodup (nth (nr K + w) c [])) as ND. assert (Y : forall m, In m (ones (nth (nr K + w) c [])) <-> m = n) by (intros m; rewrite ones_in; apply Q).
        destruct (ones (nth (nr K + w) c [])) as [|p [|q t]].
        - exfalso. apply (proj2 (Y n)). reflexivity.
        - f_equal. apply Y. left; auto.
        - exfalso. assert (p = n) by (apply Y; left; auto). assert (q = n) by (apply Y; right; left; auto). subst. inversion ND. apply H2. left; auto. }
      unfold set_text at 1. rewrite O. destruct IH as [t T]; [intros; apply B; right; auto|]. rewrite T. eexists. reflexivity. }
    destruct X as [r X]. pose proof (eq_trans (eq_sym E) X) as Y; discriminate Y.
Qed.
Print Assumptions C96_stops.

(** ** Where it is not *)
Definition three (t : atype) : access := {| a_type := t; a_role := Direct; a_dom := 3 |}.
Definition one_kind (accs : list access) : pcsymm := declare (map Plain accs).
Lemma one_laid : forall l, laid_out (one_kind l).
Proof. intros l. apply C40_declared_processes. intros n vs H. apply in_map_iff in H. destruct H as (a & E & _). discriminate. Qed.

(** Two actions with one guard: a shorter table says the same, but cannot be written. *)
Theorem C96_choice_refuted : exists net actions c, (forall pc, In pc net -> laid_out pc) /\ plain_kind (nth 0 net pc0) /\
  (forall a, In a actions -> a < actions_in net /\ representative_action_index net a = Some a) /\
  (forall v, of_solution net actions 0 v -> changes (nth 0 net pc0) v) /\
  same_table (widths (nth 0 net pc0)) (pla_rows net 0 actions) [c] /\ length (pla_rows net 0 actions) = 2 /\
  forall sls, cubes_text (nth 0 net pc0) sls [c] = None.
Proof.
  exists [one_kind [three WriteAccess]], [1; 2], [[true; false; false]; [false; true; true]].
  assert (LO : forall pc, In pc [one_kind [three WriteAccess]] -> laid_out pc) by (intros pc [<-|[]]; apply one_laid).
  assert (PL : plain_kind (nth 0 [one_kind [three WriteAccess]] pc0)) by (intros a [<-|[]]; repeat split; discriminate).
  assert (RP : forall a, In a [1; 2] -> a < actions_in [one_kind [three WriteAccess]] /\ representative_action_index [one_kind [three WriteAccess]] a = Some a).
  { intros a [<-|[<-|[]]]; split; vm_compute; try reflexivity; lia. }
  assert (M : forall x, matches [[true; false; false]; [false; true; true]] x <-> x = [0; 1] \/ x = [0; 2]).
  { intros x. unfold matches. split.
    - intros H. inversion H as [|f n l l' A B]; subst. inversion B as [|f' m l2 l2' A' B']; subst. inversion B'; subst. destruct n as [|[|[|[|n]]]]; try discriminate A. destruct m as [|[|[|[|m]]]]; try discriminate A'; auto.
    - intros [->| ->]; repeat constructor. }
  assert (R : forall x, (exists c, In c (pla_rows [one_kind [three WriteAccess]] 0 [1; 2]) /\ matches c x) <-> x = [0; 1] \/ x = [0; 2]).
  { intros x. assert (E : pla_rows [one_kind [three WriteAccess]] 0 [1; 2] = [[[true; false; false]; [false; true; false]]; [[true; false; false]; [false; false; true]]]) by (vm_compute; reflexivity). rewrite E. split.
    - intros (c & I & H). destruct I as [<-|[<-|[]]]; inversion H as [|f n l l' A B]; subst; inversion B as [|f' m l2 l2' A' B']; subst; inversion B'; subst; destruct n as [|[|[|[|n]]]]; try discriminate A; destruct m as [|[|[|[|m]]]]; try discriminate A'; auto.
    - intros [->| ->]; [exists [[true; false; false]; [false; true; false]]|exists [[true; false; false]; [false; false; true]]]; (split; [simpl; auto|repeat constructor]). }
  split; [exact LO|]. split; [exact PL|]. split; [exact RP|]. split; [|split; [|split; [vm_compute; reflexivity|intros sls; reflexivity]]].
  - intros v V. apply (rows_matches _ 0 _ v LO PL RP) in V. apply R in V. exists 0. split; [vm_compute; lia|]. split; [left; reflexivity|]. destruct V as [->| ->]; vm_compute; discriminate.
  - constructor.
    + intros c [<-|[]]. reflexivity.
    + intros c f [<-|[]] [<-|[<-|[]]]; simpl; auto.
    + intros x. rewrite R. split; [intros (c & [<-|[]] & H); apply M; auto|]. intros H. exists [[true; false; false]; [false; true; true]]. split; [left; auto|]. apply M; auto.
Qed.
Print Assumptions C96_choice_refuted.

(** A variable that is written but not seen: the table has the value 0 as its guard. *)
Theorem C96_unseen_refuted : exists K v, laid_out K /\ action_values K v /\ ~ visible (nth 1 (accs K) acc0) /\
  forall x, matches (pla_act K v) x -> nth 1 x 0 = 0.
Proof.
  exists (one_kind [three ReadAccess; three YieldAccess]), [1; 0; 2]. split; [apply one_laid|]. split; [apply valid_spec; repeat constructor|]. split; [intros (_ & H & _); apply H; reflexivity|].
  intros x H. apply matches_nth in H. destruct H as [_ H]. specialize (H 1 ltac:(vm_compute; lia)). change (nth 1 (pla_act (one_kind [three ReadAccess; three YieldAccess]) [1; 0; 2]) []) with [true; false; false] in H.
  destruct (nth 1 x 0) as [|[|[|[|n]]]]; try discriminate H. reflexivity.
Qed.
Print Assumptions C96_unseen_refuted.

(** A variable that is left alone: no value has a 1, and the line stands for nothing. *)
Theorem C96_left_alone_refuted : exists K v, laid_out K /\ action_values K v /\ (forall x, ~ matches (pla_act K v) x) /\ forall sls, cube_text K sls (pla_act K v) = None.
Proof.
  exists (one_kind [three WriteAccess; {| a_type := WriteAccess; a_role := Shadow; a_dom := 2 |}]), [0; 0; 1; 2]. split; [apply one_laid|]. split; [apply valid_spec; repeat constructor|]. split; [|intros sls; reflexivity].
  intros x H. apply matches_nth in H. destruct H as [_ H]. specialize (H 2 ltac:(vm_compute; lia)). change (nth 2 (pla_act _ _) []) with [false; false] in H. destruct (nth 2 x 0) as [|[|[|n]]]; discriminate H.
Qed.
Print Assumptions C96_left_alone_refuted.

(** A variable that is written at random: the text assigns 0. *)
Theorem C96_random_refuted : exists K v, laid_out K /\ action_values K v /\ a_type (nth 0 (accs K) acc0) = RandomWriteAccess /\
  forall x i, exists ts, cube_text K [mkSlot RandomWriteAccess x i i] (pla_act K v) = Some (ts ++ print (SAref x i) ++ [TSet; TNat 0; TSemi; TRp]).
Proof.
  exists (one_kind [three RandomWriteAccess]), [1; 0]. split; [apply one_laid|]. split; [apply valid_spec; repeat constructor|]. split; [reflexivity|].
  intros x i. exists (TLp :: print (SAref x i) ++ [TCmp CEq; TNat 1; TTo]). 
  transitivity (Some (TLp :: (print (SAref x i) ++ [TCmp CEq; TNat 1]) ++ [TTo] ++ ((print (SAref x i) ++ [TSet; TNat 0; TSemi]) ++ []) ++ [TRp])); [reflexivity|].
  f_equal. rewrite app_nil_r, <- !app_comm_cons, <- !app_assoc. reflexivity.
Qed.
Print Assumptions C96_random_refuted.

(** A process that looks to its left and copies what it sees there, if that is not 0: four lines become two. *)
Definition copy_net : list pcsymm := [one_kind [three ReadAccess; three WriteAccess]].
Definition copy_slots : list slot := [mkSlot ReadAccess "x" (SBin SubOp (SName "i") (SNat 1)) (SBin SubOp (SName "i") (SNat 1)); mkSlot WriteAccess "x" (SName "i") (SName "i")].
Definition copy_cubes : list (list bits) := [[[false; true; false]; [true; false; true]; [false; true; false]]; [[false; false; true]; [true; true; false]; [false; false; true]]].
Definition copy_actions : list nat := filter (fun a => match vals (act_of copy_net a) with [l; x; y] => (y =? l) && negb (x =? y) && negb (l =? 0) | _ => false end) (seq 0 27).
Definition six (f : list nat -> bool) : list (list nat) := filter f (flat_map (fun a => flat_map (fun b => map (fun c => [a; b; c]) (seq 0 3)) (seq 0 3)) (seq 0 3)).
Lemma field_below : forall (f : bits) n, nth n f false = true -> n < length f.
Proof. intros f n H. destruct (Nat.lt_ge_cases n (length f)); auto. rewrite nth_overflow in H by auto. discriminate. Qed.
Definition matches_ck (c : list bits) (x : list nat) : bool := (length c =? length x) && forallb (fun i => nth (nth i x 0) (nth i c []) false) (seq 0 (length c)).
Lemma matches_ck_iff : forall c x, matches_ck c x = true <-> matches c x.
Proof.
  intros c x. unfold matches_ck. rewrite matches_nth, andb_true_iff, Nat.eqb_eq, forallb_forall. split; intros [A B]; split; auto; intros i I; apply B; [apply in_seq; lia|apply in_seq in I; lia].
Qed.
Example C96_example :
  (forall pc, In pc copy_net -> laid_out pc) /\ plain_kind (nth 0 copy_net pc0) /\ length copy_actions = 4 /\
  (forall a, In a copy_actions -> a < actions_in copy_net /\ representative_action_index copy_net a = Some a) /\
  (forall v, of_solution copy_net copy_actions 0 v -> changes (nth 0 copy_net pc0) v) /\
  length copy_slots = length (accs (nth 0 copy_net pc0)) /\ readable [] copy_slots /\
  same_table (widths (nth 0 copy_net pc0)) (pla_rows copy_net 0 copy_actions) copy_cubes /\
  exists lines, cubes_text (nth 0 copy_net pc0) copy_slots copy_cubes = Some lines /\
    hd [] lines = TLp :: print (vbl_name copy_slots 0) ++ [TCmp CEq; TNat 1; TAnd] ++ print (vbl_name copy_slots 1) ++ [TCmp CNe; TNat 1; TTo] ++ print (vbl_name copy_slots 1) ++ [TSet; TNat 1; TSemi; TRp].
Proof.
  assert (LO : forall pc, In pc copy_net -> laid_out pc) by (intros pc [<-|[]]; apply one_laid).
  assert (PL : plain_kind (nth 0 copy_net pc0)) by (intros a [<-|[<-|[]]]; repeat split; discriminate).
  assert (RP : forall a, In a copy_actions -> a < actions_in copy_net /\ representative_action_index copy_net a = Some a).
  { assert (Q : forallb (fun a => (a <? actions_in copy_net) && match representative_action_index copy_net a with Some r => r =? a | None => false end) copy_actions = true) by (vm_compute; reflexivity).
    rewrite forallb_forall in Q. intros a I. specialize (Q a I). apply andb_true_iff in Q. destruct Q as [Q1 Q2]. apply Nat.ltb_lt in Q1. split; auto. destruct (representative_action_index copy_net a); [|discriminate]. apply Nat.eqb_eq in Q2. congruence. }
  assert (T : forall cs x, (forall c, In c cs -> map (@length bool) c = [3; 3; 3]) -> (exists c, In c cs /\ matches c x) -> In x (six (fun x => existsb (fun c => matches_ck c x) cs))).
  { intros cs x W (c & I & M). apply filter_In. split; [|apply existsb_exists; exists c; split; auto; apply matches_ck_iff; auto]. specialize (W c I). apply matches_nth in M. destruct M as [L M].
    assert (LC : length c = 3) by (rewrite <- (map_length (@length bool)), W; reflexivity).
    assert (B : forall i, i < 3 -> nth i x 0 < 3). { intros i J. specialize (M i ltac:(unfold bits in *; lia)). apply field_below in M. rewrite <- (map_nth (@length bool)), W in M. replace (nth i [3; 3; 3] (List.length (@nil bool))) with 3 in M by (destruct i as [|[|[|i]]]; [reflexivity|reflexivity|reflexivity|lia]). exact M. }
    unfold bits in *. destruct x as [|a [|d [|e [|]]]]; simpl in L; try lia. apply in_flat_map. exists a. split; [apply in_seq; specialize (B 0); simpl in B; lia|]. apply in_flat_map. exists d. split; [apply in_seq; specialize (B 1); simpl in B; lia|].
    apply in_map_iff. exists e. split; auto. apply in_seq. specialize (B 2). simpl in B. lia. }
  assert (T' : forall cs x, In x (six (fun x => existsb (fun c => matches_ck c x) cs)) -> exists c, In c cs /\ matches c x).
  { intros cs x I. apply filter_In in I. destruct I as [_ I]. apply existsb_exists in I. destruct I as (c & C & M). exists c. split; auto. apply matches_ck_iff; auto. }
  assert (ROWS : forall c, In c (pla_rows copy_net 0 copy_actions) -> map (@length bool) c = [3; 3; 3]) by (apply (C96_table copy_net 0 copy_actions LO PL RP)).
  assert (CUBES : forall c, In c copy_cubes -> map (@length bool) c = [3; 3; 3]) by (intros c [<-|[<-|[]]]; reflexivity).
  split; [exact LO|]. split; [exact PL|]. split; [vm_compute; reflexivity|]. split; [exact RP|]. split; [|split; [reflexivity|split; [|split; [constructor|]]]].
  - intros v V. apply (rows_matches _ 0 _ v LO PL RP) in V. apply (T _ v ROWS) in V. assert (Q : forallb (fun x => negb (nth 1 x 0 =? nth 2 x 0)) (six (fun x => existsb (fun c => matches_ck c x) (pla_rows copy_net 0 copy_actions))) = true) by (vm_compute; reflexivity).
    rewrite forallb_forall in Q. specialize (Q v V). apply negb_true_iff, Nat.eqb_neq in Q. exists 1. split; [vm_compute; lia|]. split; [left; reflexivity|]. exact Q.
  - constructor; [|constructor; [|constructor]]; (split; [|simpl; auto]).
    + exists [TId "i"; TMinus; TNat 1]. vm_compute. reflexivity.
    + exists [TId "i"]. vm_compute. reflexivity.
  - exact CUBES.
  - intros c f [<-|[<-|[]]] [<-|[<-|[<-|[]]]]; simpl; auto.
  - intros x. assert (Q : six (fun x => existsb (fun c => matches_ck c x) copy_cubes) = six (fun x => existsb (fun c => matches_ck c x) (pla_rows copy_net 0 copy_actions))) by (vm_compute; reflexivity).
    split; intros H; apply T'; [rewrite <- Q|rewrite Q]; apply T; auto.
  - eexists. split; vm_compute; reflexivity.
Qed.
