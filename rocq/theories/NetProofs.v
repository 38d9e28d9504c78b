(** The formula of one action for one process: proofs. *)
From Coq Require Import List Arith Bool Lia.
From Verif Require Import FinLib Radix FmlaModel FmlaSpec FmlaProofs FmlaProofs2 FmlaProofs3 FmlaProofs4
  ActModel ActSpec ActProofs ActProofs2 ActProofs4 NetModel NetSpec.
Import ListNotations.

Lemma eval_all_of : forall l x e, eval (all_of l x) e = eval x e && forallb (fun f => eval f e) l.
Proof. intros. apply (fold_and (fun f => f)). Qed.

Lemma forallb_flat : forall A B (f : B -> bool) (g : A -> list B) l,
  forallb f (flat_map g l) = forallb (fun x => forallb f (g x)) l.
Proof. induction l as [|x l IH]; cbn; auto. rewrite forallb_app, IH. reflexivity. Qed.

Section Net.
Variable N : network.
Notation ds := (vdoms N).
Notation ok := (ok (vdoms N)).
Hypothesis HN : net_ok N.

Section Pc.
Variable p : process.
Hypothesis Hp : In p (pcs N).
Notation k := (kind_of N p).

Lemma inh : inhabited ds.
Proof. apply (no_dom _ HN). Qed.

Lemma rvbl_ok : forall i, i < nr k -> rvbl p i < length ds /\ nth (rvbl p i) ds 0 = a_dom (acc k i).
Proof. intros i H. destruct (no_id _ HN p i Hp H) as (A & B & _). auto. Qed.

Lemma wvbl_place : forall i, i < nr k -> wck k i = true -> wvbl N p (place k i) = rvbl p i.
Proof. intros i Hi W. unfold wvbl. destruct (nth_place k i Hi W) as [_ ->]. reflexivity. Qed.

Lemma own_iff : forall x, In x (own_wvbls N p) <-> own N p x.
Proof.
  intros x. unfold own_wvbls. rewrite in_map_iff. split.
  - intros (w & E & Hw). apply in_seq in Hw. destruct (wmap_nth k w) as (A & B & C); [lia|].
    exists (nth w (wmap k) 0). split; [exact A|]. split; [|exact E]. apply writable_ck. exact B.
  - intros (i & Hi & W & E). apply writable_ck in W. exists (place k i). split.
    + rewrite wvbl_place; auto.
    + apply in_seq. destruct (nth_place k i Hi W). lia.
Qed.

Lemma fickle_iff : forall x, In x (random_vbls N) <-> fickle N x.
Proof.
  intros x. unfold random_vbls. rewrite in_flat_map. split.
  - intros (q & Hq & H). apply in_map_iff in H. destruct H as (i & E & H). apply filter_In in H. destruct H as (H & R).
    apply in_seq in H. exists q, i. split; auto. split; [apply H|]. split; auto.
    change (access_at N q i) with (acc (kind_of N q) i). destruct (a_type (acc (kind_of N q) i)) eqn:T; unfold random_read_ck in R; rewrite T in R; congruence.
  - intros (q & i & Hq & Hi & T & E). exists q. split; auto. apply in_map_iff. exists i. split; auto.
    apply filter_In. split; [apply in_seq; split; [lia|exact Hi]|].
    change (access_at N q i) with (acc (kind_of N q) i) in T. unfold random_read_ck. rewrite T. reflexivity.
Qed.

Lemma written_iff : forall x, In x (written N p) <-> own N p x \/ fickle N x.
Proof. intros x. unfold written. rewrite in_app_iff. fold (own_wvbls N p). rewrite own_iff, fickle_iff. tauto. Qed.

Lemma wf_written : wf_ids ds (written N p).
Proof.
  apply Forall_forall. intros x Hx. apply written_iff in Hx. destruct Hx as [(i & Hi & _ & <-)|(q & i & Hq & Hi & _ & <-)].
  - apply (no_id _ HN p i Hp Hi).
  - apply (no_id _ HN q i Hq Hi).
Qed.

Lemma randomised_iff : probabilistic_pc k = true <-> randomised N p.
Proof.
  unfold probabilistic_pc, randomised.
  rewrite (existsb_written k _ (fun i => visible (acc k i) /\ a_type (acc k i) = RandomWriteAccess)).
  - change (its_kind N p) with k. change (accesses N p) with (nr k). split.
    + intros (i & Hi & _ & H). exists i. auto.
    + intros (i & Hi & V & T). exists i. split; auto. split; auto. unfold wck, write_ck.
      change (access_at N p i) with (acc k i) in T. rewrite T. reflexivity.
  - intros i Hi W. rewrite waccess_place by auto. rewrite andb_true_iff, visible_iff.
    unfold random_write_ck. destruct (a_type (acc k i)); intuition congruence.
Qed.

Section Vals.
Variable v : list nat.
Hypothesis Hv : action_values k v.

Lemma keep_is_writeonly : forall i, i < nr k -> wck k i = true -> random_write_ck (acc k i) = false ->
  assigned k v i <= a_dom (acc k i) /\ (assigned k v i = a_dom (acc k i) -> synt_writeonly_ck (acc k i) = true).
Proof.
  intros i Hi W R. destruct Hv as (_ & _ & H). specialize (H i Hi). fold (acc k i) in H.
  assert (HW : writable (acc k i)) by (apply writable_ck; exact W). specialize (H HW).
  unfold synt_writeonly_ck, synt_read_ck, read_ck, puppet_ck, write_ck, assign_values in *. unfold wck, write_ck in W.
  unfold random_write_ck in R.
  destruct (a_type (acc k i)), (a_role (acc k i)); cbn; split; try lia; try discriminate; auto.
Qed.

Lemma ev_w_guard : forall a i q j, ok a -> ok i -> ok q -> j < nr k -> wck k j = true ->
  (forallb (fun f => eval f (join a i q)) (w_guard N p v (place k j)) = true <->
   (visible (acc k j) -> nth (rvbl p j) q 0 = tested v j)).
Proof.
  intros a i q j A I Q Hj W. unfold w_guard. rewrite waccess_place by auto. rewrite wvbl_place, aguard_place by auto.
  destruct (synt_read_ck (acc k j)) eqn:E.
  - cbn [forallb]. rewrite andb_true_r, (ev_eqc ds) by (auto; apply rvbl_ok; auto). rewrite Nat.eqb_eq.
    apply visible_iff in E. tauto.
  - cbn. split; auto. intros _ V. apply visible_iff in V. congruence.
Qed.

Lemma ev_w_assign : forall a i q j, ok a -> ok i -> ok q -> j < nr k -> wck k j = true ->
  (forallb (fun f => eval f (join a i q)) (w_assign N p v (place k j)) = true <->
   (a_type (acc k j) <> RandomWriteAccess ->
    nth (rvbl p j) i 0 = if assigned k v j =? a_dom (acc k j) then nth (rvbl p j) q 0 else assigned k v j)).
Proof.
  intros a i q j A I Q Hj W. unfold w_assign. rewrite waccess_place by auto. rewrite !wvbl_place by auto.
  change (assign k v (place k j)) with (assigned k v j). destruct (rvbl_ok j Hj) as (R1 & R2).
  destruct (random_write_ck (acc k j)) eqn:E.
  - cbn. split; auto. intros _ T. unfold random_write_ck in E. destruct (a_type (acc k j)); congruence.
  - assert (T : a_type (acc k j) <> RandomWriteAccess) by (intros T; unfold random_write_ck in E; rewrite T in E; discriminate).
    destruct (keep_is_writeonly j Hj W E) as (L & _).
    destruct (Nat.eqb_spec (assigned k v j) (a_dom (acc k j))) as [EQ|NE]; cbn [forallb]; rewrite andb_true_r.
    + rewrite (ev_img_eq ds) by auto. rewrite Nat.eqb_eq. unfold domsz. rewrite Nat.mod_small by (apply ok_nth; auto). tauto.
    + rewrite (ev_img_eqc ds) by auto. rewrite Nat.eqb_eq. unfold domsz. rewrite R2, Nat.mod_small by lia. tauto.
Qed.

Lemma ev_r_guard : forall a i q j, ok a -> ok i -> ok q -> j < nr k ->
  (forallb (fun f => eval f (join a i q)) (r_guard N p v j) = true <->
   (visible (acc k j) -> wck k j = false -> nth (rvbl p j) q 0 = tested v j)).
Proof.
  intros a i q j A I Q Hj. unfold r_guard, synt_readonly_ck, wck.
  destruct (synt_read_ck (acc k j)) eqn:E; cbn [andb].
  - destruct (write_ck (acc k j)) eqn:E2; cbn [negb].
    + cbn. split; auto. intros; discriminate.
    + cbn [forallb]. rewrite andb_true_r, (ev_eqc ds) by (auto; apply rvbl_ok; auto). rewrite Nat.eqb_eq.
      apply visible_iff in E. tauto.
  - cbn. split; auto. intros _ V. apply visible_iff in V. congruence.
Qed.

Lemma ev_writeonly_guard : forall a i q, ok a -> ok i -> ok q ->
  (eval (writeonly_guard N p v) (join a i q) = true <->
   exists j, j < nr k /\ wck k j = true /\ ~ visible (acc k j) /\ assigned k v j < a_dom (acc k j) /\
     nth (rvbl p j) q 0 <> assigned k v j).
Proof.
  intros a i q A I Q. unfold writeonly_guard.
  set (test w := synt_writeonly_ck (waccess k w) && (assign k v w <? a_dom (waccess k w))).
  set (g w := not_PFmla (eqc_PFmlaVbl ds (wvbl N p w) (assign k v w))).
  assert (E : forall l x, eval (fold_left (fun y w => if test w then or_PFmla y (g w) else y) l x) (join a i q) =
     eval x (join a i q) || existsb (fun w => test w && eval (g w) (join a i q)) l).
  { induction l as [|w l IH]; intros x; cbn [fold_left existsb]; [rewrite orb_false_r; auto|].
    rewrite IH. destruct (test w); cbn [andb orb]; auto. rewrite eval_or, orb_assoc. auto. }
  unfold test, g in E. rewrite E. cbn [eval orb].
  rewrite (existsb_written k _ (fun j => ~ visible (acc k j) /\ assigned k v j < a_dom (acc k j) /\ nth (rvbl p j) q 0 <> assigned k v j)).
  - tauto.
  - intros j Hj W. unfold test, g. rewrite waccess_place, wvbl_place by auto. change (assign k v (place k j)) with (assigned k v j).
    rewrite eval_not, (ev_eqc ds) by (auto; apply rvbl_ok; auto).
    rewrite !andb_true_iff, Nat.ltb_lt, negb_true_iff, Nat.eqb_neq.
    pose proof (writeonly_visible k j W) as X. destruct (synt_writeonly_ck (acc k j)); split; intros H.
    + destruct H as ((_ & H1) & H2). split; [|auto]. intros V. apply X in V. discriminate.
    + destruct H as (H0 & H1 & H2). auto.
    + destruct H as ((H1 & _) & _). discriminate.
    + exfalso. destruct H as (H0 & _). apply H0. apply X. auto.
Qed.

Lemma rsl_iff : readable_self_loop k v = true <->
  ~ randomised N p /\ forall i, i < nr k -> wck k i = true -> visible (acc k i) -> tested v i = assigned k v i.
Proof.
  unfold readable_self_loop. rewrite andb_true_iff, negb_true_iff. rewrite <- randomised_iff.
  destruct (probabilistic_pc k) eqn:EP; [split; [intros (H & _); discriminate|intros (H & _); exfalso; auto]|].
  rewrite (forallb_written k _ (fun i => visible (acc k i) -> tested v i = assigned k v i)).
  - split; intros (H1 & H2); split; auto.
  - intros i Hi W. rewrite waccess_place, aguard_place by auto. change (assign k v (place k i)) with (assigned k v i).
    rewrite !orb_true_iff, negb_true_iff, Nat.eqb_eq. split.
    + intros [[H|H]|H] V; auto.
      * apply visible_iff in V. congruence.
      * exfalso. enough (probabilistic_pc k = true) by congruence. apply randomised_iff. exists i. split; auto. split; auto.
        unfold random_write_ck in H. change (access_at N p i) with (acc k i). destruct (a_type (acc k i)); congruence.
    + intros H. destruct (synt_read_ck (acc k i)) eqn:E; auto. right. apply H. apply visible_iff. auto.
Qed.

(** The whole formula. *)
Lemma ev_xn_of_pc : forall a i q, ok a -> ok i -> ok q ->
  (eval (xn_of_pc N p v) (join a i q) = true <->
   (forall j, j < nr k -> visible (acc k j) -> nth (rvbl p j) q 0 = tested v j) /\
   (forall j, j < nr k -> wck k j = true -> a_type (acc k j) <> RandomWriteAccess ->
      nth (rvbl p j) i 0 = if assigned k v j =? a_dom (acc k j) then nth (rvbl p j) q 0 else assigned k v j) /\
   (randomised N p -> eval (okay_xn N p) (join a i q) = true) /\
   (~ randomised N p -> (forall j, j < nr k -> wck k j = true -> visible (acc k j) -> tested v j = assigned k v j) ->
    exists j, j < nr k /\ wck k j = true /\ ~ visible (acc k j) /\ assigned k v j < a_dom (acc k j) /\
      nth (rvbl p j) q 0 <> assigned k v j)).
Proof.
  intros a i q A I Q. unfold xn_of_pc. cbv zeta. rewrite eval_all_of, forallb_flat.
  assert (ER : forallb (fun x => forallb (fun f => eval f (join a i q)) (r_guard N p v x)) (seq 0 (nr k)) = true <->
    forall j, j < nr k -> visible (acc k j) -> wck k j = false -> nth (rvbl p j) q 0 = tested v j).
  { rewrite forallb_forall. split; intros H j Hj.
    - apply (ev_r_guard a i q j A I Q Hj). apply H. apply in_seq. lia.
    - apply in_seq in Hj. apply ev_r_guard; auto; try lia. apply H. lia. }
  set (x0 := all_of (flat_map _ (seq 0 (nw k))) (Cst true)).
  assert (E0 : eval x0 (join a i q) = true <->
    forall j, j < nr k -> wck k j = true -> (visible (acc k j) -> nth (rvbl p j) q 0 = tested v j) /\
      (a_type (acc k j) <> RandomWriteAccess ->
      nth (rvbl p j) i 0 = if assigned k v j =? a_dom (acc k j) then nth (rvbl p j) q 0 else assigned k v j)).
  { unfold x0. rewrite eval_all_of, forallb_flat. cbn [eval andb].
    rewrite (forallb_written k _ (fun j => (visible (acc k j) -> nth (rvbl p j) q 0 = tested v j) /\
      (a_type (acc k j) <> RandomWriteAccess ->
      nth (rvbl p j) i 0 = if assigned k v j =? a_dom (acc k j) then nth (rvbl p j) q 0 else assigned k v j))); [tauto|].
    intros j Hj W. rewrite forallb_app, andb_true_iff, ev_w_guard, ev_w_assign by auto. tauto. }
  clearbody x0.
  set (x1 := if probabilistic_pc k then and_PFmla x0 (okay_xn N p) else x0).
  assert (E1 : eval x1 (join a i q) = true <-> eval x0 (join a i q) = true /\ (randomised N p -> eval (okay_xn N p) (join a i q) = true)).
  { unfold x1. pose proof randomised_iff as R. destruct (probabilistic_pc k).
    - rewrite eval_and, andb_true_iff. tauto.
    - split; [|tauto]. intros H. split; auto. intros X. apply R in X. discriminate. }
  clearbody x1.
  set (x2 := if readable_self_loop k v then and_PFmla x1 (writeonly_guard N p v) else x1).
  assert (E2 : eval x2 (join a i q) = true <-> eval x1 (join a i q) = true /\
     (readable_self_loop k v = true -> eval (writeonly_guard N p v) (join a i q) = true)).
  { unfold x2. destruct (readable_self_loop k v).
    - rewrite eval_and, andb_true_iff. tauto.
    - split; [|tauto]. intros H. split; auto. discriminate. }
  clearbody x2. rewrite andb_true_iff, ER, E2, E1, E0, rsl_iff, ev_writeonly_guard by auto. split.
  - intros (((H1 & H2) & H3) & H4). split; [|split; [|split; auto]].
    + intros j Hj V. destruct (wck k j) eqn:W; [apply (H1 j Hj W); auto|auto].
    + intros j Hj W T. apply H1; auto.
  - intros (H1 & H2 & H3 & H4). split; [split; [split|]|]; auto. intros (X & Y). auto.
Qed.
End Vals.
End Pc.
End Net.
