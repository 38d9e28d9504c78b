(** Actions in the output file: what they mean. *)
From Coq Require Import String List Arith Bool ZArith Lia.
From Verif Require FmlaProofs.
From Verif Require Import ParseModel AccessModel PrintModel PrintProofs FmlaModel FmlaSpec IntModel ExprModel ExprSpec ActModel ActSpec ActProofs ActProofs2 ActProofs4 NetModel NetSpec NetProofs CmdModel CmdSpec PrintSpec.
Import ListNotations.
Local Open Scope list_scope.

Section Meaning.
Variable N : network.
Notation ds := (vdoms N).
Notation ok := (FmlaSpec.ok (vdoms N)).
Hypothesis HN : net_ok N.
Variable p : process.
Hypothesis Hp : In p (pcs N).
Notation K := (kind_of N p).
Hypothesis ONCE : NoDup (own_wvbls N p).
Variable G : scope.
Variable b : imap.
Variable sls : list slot.
Hypothesis CELL : forall i s, i < nr K -> ok s -> cell G b (sl_array (nth i sls slot0)) (sl_text (nth i sls slot0)) s = Some (rvbl p i).
Variable v : list nat.
Hypothesis AV : action_values K v.
Notation act := (the_action K sls v).

Lemma test_truth : forall i s, i < nr K -> ok s -> truth G b (test sls v i) s = Some (if Nat.eq_dec (value s p i) (tested v i) then true else false).
Proof.
  intros i s I OK. pose proof (CELL i s I OK) as C. unfold cell in C. unfold test, vbl_name. simpl.
  destruct (value_of G b (sl_text (nth i sls slot0)) s) as [k|]; [|discriminate]. destruct (assoc (sl_array (nth i sls slot0)) (g_arrays G)) as [l|]; [|discriminate]. rewrite C. simpl.
  unfold value, vbl_at, tested, guard. unfold rvbl. destruct (Z.eq_dec _ _), (Nat.eq_dec _ _); auto; lia.
Qed.
Lemma tests_truth : forall l e s, (forall i, In i l -> i < nr K) -> ok s ->
  (truth G b (fold_left (fun e j => SAnd e (test sls v j)) l e) s = Some true <-> truth G b e s = Some true /\ forall i, In i l -> value s p i = tested v i).
Proof.
  induction l as [|i l IH]; intros e s H OK; cbn [fold_left].
  - split; [intros E; split; auto; intros i []|tauto].
  - rewrite IH by (auto; intros; apply H; right; auto). cbn [truth]. destruct (truth G b e s) as [[|]|]; try (split; [intros [E _]; discriminate|intros [E _]; discriminate]).
    rewrite test_truth by (auto; apply H; left; auto). destruct (Nat.eq_dec (value s p i) (tested v i)); split; intros [A B].
    + split; auto. intros j [<-|J]; auto.
    + split; auto. intros j J; apply B; right; auto.
    + discriminate.
    + exfalso. apply n, B. left; auto.
Qed.
Lemma guard_truth : forall s, ok s -> (truth G b (a_guard act) s = Some true <-> forall i, i < accesses N p -> visible (access_at N p i) -> value s p i = tested v i).
Proof.
  intros s OK. cbn [a_guard the_action]. 
  assert (E : forall i, In i (seen_ones K) <-> i < accesses N p /\ visible (access_at N p i)).
  { intros i. unfold seen_ones. rewrite filter_In, in_seq, visible_iff. change (nr K) with (accesses N p). change (acc K i) with (access_at N p i). split; [intros [A B]; split; auto; lia|intros [A B]; split; auto; lia]. }
  assert (B : forall i, In i (seen_ones K) -> i < nr K) by (intros i I; apply E in I; apply I).
  assert (Q : (forall i, In i (seen_ones K) -> value s p i = tested v i) <-> forall i, i < accesses N p -> visible (access_at N p i) -> value s p i = tested v i).
  { split; intros H i; intros; apply H; [apply E; auto|apply E; auto|apply E; auto]. }
  rewrite <- Q. clear E Q. unfold all_tests. destruct (seen_ones K) as [|i l]; [split; [intros _ i []|reflexivity]|].
  rewrite tests_truth by (auto; intros; apply B; right; auto). rewrite test_truth by (auto; apply B; left; auto).
  destruct (Nat.eq_dec (value s p i) (tested v i)); split; intros H.
  - intros j [<-|J]; auto. apply H; auto.
  - split; auto. intros; apply H; right; auto.
  - destruct H; discriminate.
  - exfalso. apply n, H. left; auto.
Qed.

(** ** Assignments *)
Notation prints := (assigns_at K v).
Lemma place_of : forall i, i < nr K -> wck K i = true -> place K i < nw K /\ nth (place K i) (wmap K) 0 = i /\ waccess K (place K i) = acc K i.
Proof. intros i I W. destruct (nth_place K i I W) as [A B]. split; auto. split; auto. unfold waccess. rewrite B. reflexivity. Qed.
Lemma wvbl_inj : forall w w', w < nw K -> w' < nw K -> wvbl N p w = wvbl N p w' -> w = w'.
Proof.
  intros w w' W W' E. unfold own_wvbls in ONCE. apply (proj1 (NoDup_nth (map (wvbl N p) (seq 0 (nw K))) 0) ONCE w w'); rewrite ?map_length, ?seq_length; auto.
  assert (X : forall u, u < nw K -> nth u (map (wvbl N p) (seq 0 (nw K))) 0 = wvbl N p u).
  { intros u U. rewrite nth_indep with (d' := wvbl N p 0) by (rewrite map_length, seq_length; auto). rewrite map_nth, seq_nth; auto. }
  rewrite !X; auto.
Qed.
Lemma assigned_iff : forall s w, ok s -> w < nw K -> (is_assigned G b (a_assigns act) (wvbl N p w) s <-> prints w = true).
Proof.
  intros s w OK W. cbn [a_assigns the_action]. split.
  - intros (x & i & e & I & C). apply in_map_iff in I. destruct I as (w' & E & I). apply filter_In in I. destruct I as [I P]. apply in_seq in I.
    unfold assignment_at in E. injection E as E1 E2 _. destruct (wmap_nth K w' ltac:(lia)) as (J & _ & _). rewrite <- E1, <- E2, CELL in C by auto. injection C as C.
    assert (w' = w) by (apply wvbl_inj; auto; lia). subst; auto.
  - intros P. destruct (wmap_nth K w W) as (J & _ & _). eexists _, _, _. split.
    + apply in_map_iff. exists w. split; [reflexivity|]. apply filter_In. split; auto. apply in_seq. lia.
    + apply CELL; auto.
Qed.
Lemma shadow_visible : forall a, pure_shadow_ck a = true -> ~ visible a.
Proof. intros a H [V _]. unfold pure_shadow_ck in H. destruct (a_role a); congruence. Qed.
(** What is not printed is not changed. *)
Lemma silent : forall i, i < nr K -> wck K i = true -> prints (place K i) = false -> assigned K v i <> a_dom (acc K i) ->
  visible (acc K i) /\ tested v i = assigned K v i /\ random_write_ck (acc K i) = false.
Proof.
  intros i I W P D. destruct (place_of i I W) as (PL & PN & PA). unfold assigns_at in P. rewrite PA in P.
  assert (AE : assign K v (place K i) = assigned K v i) by reflexivity. rewrite AE in P.
  destruct (Nat.eqb_spec (a_dom (acc K i)) (assigned K v i)); [congruence|]. rewrite andb_true_r in P. apply negb_false_iff in P. apply andb_true_iff in P. destruct P as [SL NS].
  unfold puppet_self_loop_ck in SL. rewrite forallb_forall in SL. specialize (SL (place K i) ltac:(apply in_seq; lia)). unfold self_loop_at in SL. rewrite PA, AE in SL.
  destruct (synt_writeonly_ck (acc K i)) eqn:SW.
  - exfalso. destruct (Nat.eqb_spec (assigned K v i) (a_dom (acc K i))); [congruence|]. rewrite orb_false_r in SL.
    unfold puppet_ck, pure_shadow_ck in *. destruct (a_role (acc K i)); discriminate.
  - apply andb_true_iff in SL. destruct SL as [E R]. apply Nat.eqb_eq in E. unfold aguard in E. rewrite PN in E. split; [|split; [exact E|apply negb_true_iff; auto]].
    unfold synt_writeonly_ck in SW. unfold wck in W. rewrite W, andb_true_r in SW. apply negb_false_iff in SW. apply visible_iff; auto.
Qed.
Lemma assigned_small : forall i, i < nr K -> wck K i = true -> a_type (acc K i) <> RandomWriteAccess -> assigned K v i <> a_dom (acc K i) -> assigned K v i < a_dom (acc K i).
Proof.
  intros i I W R D. destruct AV as (_ & _ & H). apply writable_ck in W. specialize (H i I W). unfold assign_values in H. fold (acc K i) in H.
  destruct (a_type (acc K i)), (a_role (acc K i)); try congruence; lia.
Qed.
Lemma value_rvbl : forall s i, nth (rvbl p i) s 0 = value s p i.
Proof. reflexivity. Qed.
Lemma dom_at : forall i, i < nr K -> nth (rvbl p i) ds 0 = a_dom (acc K i).
Proof. intros i I. apply (rvbl_ok N HN p Hp i I). Qed.
Lemma random_ck_iff : forall a, random_write_ck a = true <-> a_type a = RandomWriteAccess.
Proof. intros a. unfold random_write_ck. destruct (a_type a); split; congruence. Qed.
Lemma random_prints : forall i, i < nr K -> wck K i = true -> random_write_ck (acc K i) = true -> prints (place K i) = true.
Proof.
  intros i I W R. destruct (prints (place K i)) eqn:P; auto. exfalso. destruct (silent i I W P) as (_ & _ & R'); [|congruence].
  destruct AV as (_ & _ & H). apply writable_ck in W. specialize (H i I W). unfold assign_values in H. fold (acc K i) in H. apply random_ck_iff in R. rewrite R in H.
  destruct (rvbl_ok N HN p Hp i I) as [B E]. pose proof (no_dom _ HN) as INH. unfold inhabited in INH. rewrite Forall_forall in INH. specialize (INH (nth (rvbl p i) ds 0) (nth_In _ _ B)). lia.
Qed.
Lemma kept_own : kept N p false = own_wvbls N p.
Proof. unfold kept, own_wvbls. f_equal. induction (seq 0 (nw K)) as [|w l IH]; cbn; [auto|]. f_equal. auto. Qed.
Lemma command_moves : forall s t, ok s -> ok t ->
  (command_step ds G b true (own_wvbls N p) act s t <->
   (forall i, i < accesses N p -> visible (access_at N p i) -> value s p i = tested v i) /\
   (forall i, i < accesses N p -> writable (access_at N p i) -> a_type (access_at N p i) <> RandomWriteAccess ->
     value t p i = if assigned K v i =? a_dom (access_at N p i) then value s p i else assigned K v i)).
Proof.
  intros s t OK OT. assert (NAR : ~ In AAnyRest (a_assigns act)).
  { intros I. apply in_map_iff in I. destruct I as (w & E & _). discriminate. }
  split.
  - intros [CG CS CR]. pose proof (proj1 (guard_truth s OK) CG) as CG0. split; [exact CG0|]. intros i I W R. apply writable_ck in W. change (access_at N p i) with (acc K i) in *. change (accesses N p) with (nr K) in *.
    destruct (place_of i I W) as (PL & PN & PA). destruct (prints (place K i)) eqn:P.
    + assert (IA : In (assignment_at K sls v (place K i)) (a_assigns act)) by (apply in_map_iff; exists (place K i); split; auto; apply filter_In; split; auto; apply in_seq; lia).
      unfold assignment_at in IA. rewrite PN, PA in IA. assert (RF : random_write_ck (acc K i) = false) by (destruct (random_write_ck (acc K i)) eqn:RF; auto; apply random_ck_iff in RF; contradiction).
      rewrite RF in IA. destruct (CS _ _ _ _ IA (CELL i s I OK)) as (z & Z1 & Z2). simpl in Z1. injection Z1 as <-.
      rewrite dom_at in Z2 by auto. change (assign K v (place K i)) with (assigned K v i) in Z2. unfold assigns_at in P. rewrite PA in P. apply andb_true_iff in P. destruct P as [_ P].
      change (assign K v (place K i)) with (assigned K v i) in P. rewrite Nat.eqb_sym in P. apply negb_true_iff in P. rewrite P. apply Nat.eqb_neq in P.
      pose proof (assigned_small i I W R P). rewrite Z.mod_small in Z2 by lia. rewrite value_rvbl in Z2. lia.
    + assert (KE : value t p i = value s p i).
      { rewrite <- !value_rvbl. apply CR; [split; auto|apply (own_iff N p); exists i; split; [exact I|split; [apply writable_ck; auto|reflexivity]]|].
        rewrite <- (wvbl_place N p i I W). rewrite assigned_iff by auto. congruence. }
      destruct (Nat.eqb_spec (assigned K v i) (a_dom (acc K i))); auto. destruct (silent i I W P n) as (V & T & _). rewrite KE, <- T. apply CG0; auto.
  - intros [CG CA]. constructor.
    + apply guard_truth; auto.
    + intros x i e u I C. apply in_map_iff in I. destruct I as (w & E & I). apply filter_In in I. destruct I as [I P]. apply in_seq in I. destruct (wmap_nth K w ltac:(lia)) as (J & WJ & PJ).
      unfold assignment_at in E. injection E as E1 E2 E3. rewrite <- E1, <- E2, CELL in C by auto. injection C as <-. set (j := nth w (wmap K) 0) in *.
      assert (WA : waccess K w = acc K j) by reflexivity. rewrite WA in *. destruct (random_write_ck (acc K j)) eqn:RF; [discriminate|]. injection E3 as <-. eexists. split; [reflexivity|].
      assert (R : a_type (acc K j) <> RandomWriteAccess) by (rewrite <- random_ck_iff; congruence).
      specialize (CA j J ltac:(apply writable_ck; auto) R). change (access_at N p j) with (acc K j) in CA.
      assert (AE : assign K v w = assigned K v j) by (unfold assign, assigned; rewrite PJ; reflexivity). unfold assigns_at in P. apply andb_true_iff in P. destruct P as [_ P]. rewrite WA, AE, Nat.eqb_sym in P. apply negb_true_iff in P.
      rewrite P in CA. apply Nat.eqb_neq in P. pose proof (assigned_small j J WJ R P). rewrite dom_at, AE, value_rvbl, CA by auto. rewrite Z.mod_small by lia. reflexivity.
    + intros _ u U NA. apply (own_iff N p) in U. destruct U as (i & I & W & <-). apply writable_ck in W. change (access_at N p i) with (acc K i) in *. change (accesses N p) with (nr K) in *.
      change (nth (vbl_at p i) t 0 = nth (vbl_at p i) s 0) with (value t p i = value s p i). change (vbl_at p i) with (rvbl p i) in NA. rewrite <- (wvbl_place N p i I W), assigned_iff in NA by (auto; apply place_of; auto).
      destruct (prints (place K i)) eqn:P; [congruence|]. destruct (random_write_ck (acc K i)) eqn:RF; [rewrite random_prints in P by auto; discriminate|].
      assert (R : a_type (acc K i) <> RandomWriteAccess) by (rewrite <- random_ck_iff; congruence). rewrite CA by (auto; apply writable_ck; auto). change (access_at N p i) with (acc K i).
      destruct (Nat.eqb_spec (assigned K v i) (a_dom (acc K i))); auto. destruct (silent i I W P n) as (V & T & _). rewrite <- T. symmetry. apply CG; auto.
Qed.
Lemma unseen_iff : forall s, ok s -> (assigns_unseen N p G b act s <->
  exists i, i < accesses N p /\ writable (access_at N p i) /\ ~ visible (access_at N p i) /\ assigned K v i <> a_dom (access_at N p i)).
Proof.
  intros s OK. split.
  - intros (w & W & SW & A). apply assigned_iff in A; auto. destruct (wmap_nth K w W) as (J & WJ & PJ). exists (nth w (wmap K) 0). split; [exact J|]. split; [apply writable_ck; exact WJ|].
    change (access_at N p (nth w (wmap K) 0)) with (waccess K w). split.
    + rewrite <- visible_iff. unfold synt_writeonly_ck in SW. destruct (synt_read_ck (waccess K w)); [discriminate|congruence].
    + unfold assigns_at in A. apply andb_true_iff in A. destruct A as [_ A]. apply negb_true_iff in A. apply Nat.eqb_neq in A. unfold assigned. fold (nr K). rewrite PJ. intros E. apply A. symmetry. exact E.
  - intros (i & I & W & V & D). apply writable_ck in W. change (access_at N p i) with (acc K i) in *. destruct (place_of i I W) as (PL & PN & PA). exists (place K i). split; auto. rewrite PA.
    split.
    + unfold synt_writeonly_ck. rewrite <- visible_iff in V. destruct (synt_read_ck (acc K i)); [contradiction V; reflexivity|]. exact W.
    + apply assigned_iff; auto. destruct (prints (place K i)) eqn:P; auto. destruct (silent i I W P D) as (V' & _). contradiction.
Qed.

(** ** Variables that change by themselves *)
Hypothesis SEES : sees_draws N p.
Lemma agree_same : forall x s s1, ok s -> ok s1 -> agree_off ds [x] s1 s -> nth x s1 0 = nth x s 0 -> s1 = s.
Proof.
  intros x s s1 OK O1 A E. apply (nth_ext s1 s 0 0).
  - rewrite (FmlaProofs.ok_length _ _ O1), (FmlaProofs.ok_length _ _ OK). reflexivity.
  - intros n L. rewrite (FmlaProofs.ok_length _ _ O1) in L. destruct (Nat.eq_dec n x); [subst; auto|]. apply A; [auto|]. intros [Q|[]]; congruence.
Qed.
Lemma drawn_stay : forall l s s0, (forall x, In x l -> exists j, j < accesses N p /\ visible (access_at N p j) /\ vbl_at p j = x) -> ok s ->
  redrawn ds (fun s => truth G b (a_guard act) s = Some true) l s s0 -> truth G b (a_guard act) s0 = Some true -> s0 = s.
Proof.
  induction l as [|x l IH]; intros s s0 H OK R T; [exact R|]. destruct R as (GS & s1 & O1 & A & R). assert (s0 = s1) by (apply IH; auto; intros; apply H; right; auto). subst s0.
  destruct (H x) as (j & J & V & E); [left; auto|]. pose proof (proj1 (guard_truth s OK) GS) as GS0. pose proof (proj1 (guard_truth s1 O1) T) as T0. apply agree_same with (x := x); auto.
  rewrite <- E. change (value s1 p j = value s p j). rewrite GS0, T0; auto.
Qed.
Lemma drawn_none : forall l s, ok s -> truth G b (a_guard act) s = Some true -> redrawn ds (fun s => truth G b (a_guard act) s = Some true) l s s.
Proof. induction l as [|x l IH]; intros s OK T; [reflexivity|]. split; auto. exists s. split; auto. split; [intros n L I; reflexivity|auto]. Qed.
Hypothesis LEN : length (p_vbls p) = nr K.
Lemma drawn_seen : forall x, In x (rev (filter (drawn N) (p_vbls p))) -> exists j, j < accesses N p /\ visible (access_at N p j) /\ vbl_at p j = x.
Proof.
  intros x I. apply in_rev in I. apply filter_In in I. destruct I as [I D]. apply (In_nth _ _ 0) in I. destruct I as (i & L & E). rewrite LEN in L.
  unfold drawn in D. apply existsb_exists in D. destruct D as (y & Y & E'). apply Nat.eqb_eq in E'. subst y. apply (fickle_iff N) in Y.
  destruct (SEES i) as (j & J & V & EJ); [exact L|unfold vbl_at; rewrite E; exact Y|]. exists j. split; auto. split; auto. rewrite EJ. exact E.
Qed.
Lemma action_moves : forall s t, ok s -> ok t -> (action_step N p G b true act Puppet s t <-> written_move N p v s t).
Proof.
  intros s t OK OT.
  assert (RAW : raw_step N p G b true act s t <-> command_step ds G b true (own_wvbls N p) act s t).
  { unfold raw_step. cbn [a_cut the_action]. rewrite kept_own. split.
    - intros (s0 & O0 & R & C). assert (s0 = s). { eapply drawn_stay; eauto; [apply drawn_seen|]. apply C. } subst; auto.
    - intros C. exists s. split; auto. split; auto. apply drawn_none; auto. apply C. }
  assert (CH : (exists u, In u (own_wvbls N p) /\ nth u t 0 <> nth u s 0) <-> exists x, own N p x /\ nth x t 0 <> nth x s 0).
  { split; intros (x & A & B); exists x; split; auto; apply (own_iff N p); auto. }
  split.
  - intros [R _ L]. apply RAW in R. apply command_moves in R; auto. destruct R as [R1 R2]. constructor; auto. intros U. apply CH, L. apply unseen_iff; auto.
  - intros [R1 R2 R3]. constructor; [apply RAW, command_moves; auto|discriminate|]. intros U. apply CH, R3. apply unseen_iff in U; auto.
Qed.
End Meaning.
