From Coq Require Import String List Arith Bool ZArith Lia.
From Verif Require Import FinLib Radix FmlaModel FmlaSpec FmlaProofs FmlaProofs2 FmlaProofs3 FmlaProofs4
  ActModel NetModel IntModel IntSpec IntProofs ExprModel ExprSpec ExprProofs ReachSpec ReachProofs CmdModel CmdSpec CmdProofs2.
Import ListNotations.
Local Open Scope list_scope.

Lemma keys : forall (b : imap) x, assoc x b <> None -> In x (map fst b).
Proof.
  induction b as [|(y, v) b IH]; intros x H; cbn in *; [contradiction|]. destruct (String.eqb_spec x y); auto.
Qed.

Section P.
Variable ds : list nat.
Hypothesis INH : inhabited ds.
Notation ok := (ok ds).
Notation now pf s := (FmlaModel.eval pf (join s s s)).

Lemma set_vbl_spec : forall N xn v val, vdoms N = ds -> v < length ds -> table_ok ds val ->
  exists xn', set_vbl N xn v val = Some xn' /\
  forall a i p, ok a -> ok i -> ok p ->
    (eval xn' (join a i p) = true <-> eval xn (join a i p) = true /\
     Z.of_nat (nth v i 0) = (entry val p mod Z.of_nat (nth v ds 0%nat))%Z).
Proof.
  intros N xn v val E V T. unfold set_vbl. rewrite E.
  assert (D : 0 < nth v ds 0) by (apply Forall_nth with (d := 0) (i := v) in INH; auto; lia).
  destruct (of_int_table ds (Z.of_nat (domsz ds v))) as (TI & EI).
  destruct (defeq_binop val (of_int (Z.of_nat (domsz ds v))) ModOp) as [val'|] eqn:B.
  - destruct (binop_some ds INH _ _ _ _ T TI B) as (T' & H). destruct (of_vbl_table ds v V) as (TV & EV).
    assert (NE : i_vbls (of_vbl ds v) <> []) by discriminate.
    destruct (img_eq_spec ds INH _ _ TV T' NE) as (pf & I & M). rewrite I. cbn [option_map]. eexists. split; [reflexivity|].
    intros a i p A S P. rewrite eval_and, andb_true_iff. specialize (M a i p A S P). unfold meaning in M. rewrite M, EV by auto.
    specialize (H p P). unfold op_value in H. rewrite EI in H. unfold domsz in H.
    destruct (Z.leb_spec (Z.of_nat (nth v ds 0)) 0) as [C|_]; [lia|]. injection H as <-. tauto.
  - destruct (binop_none ds INH _ _ _ T TI B) as (s & S & H). unfold op_value in H. rewrite EI in H. unfold domsz in H.
    destruct (Z.leb_spec (Z.of_nat (nth v ds 0)) 0) as [C|_]; [lia|discriminate].
Qed.

Lemma keep_fold : forall l x a i p, wf_ids ds l -> ok a -> ok i -> ok p ->
  (eval (fold_left (fun x v => and_PFmla x (img_eq_PFmlaVbl ds v v)) l x) (join a i p) = true <->
   eval x (join a i p) = true /\ forall v, In v l -> nth v i 0 = nth v p 0).
Proof.
  intros l x a i p W A I P. rewrite fold_and, andb_true_iff, forallb_forall.
  assert (K : forall v, In v l -> (eval (img_eq_PFmlaVbl ds v v) (join a i p) = true <-> nth v i 0 = nth v p 0)).
  { intros v Hv. assert (V : v < length ds) by (eapply Forall_forall in W; eauto). rewrite ev_img_eq, Nat.eqb_eq by auto.
    unfold domsz. rewrite Nat.mod_small by (apply ok_nth; auto). tauto. }
  split; intros (H1 & H2); split; auto; intros v Hv; apply K; auto.
Qed.

Section Process.
Variables (N : network) (F : file) (idx_name : string) (lets : list (string * list Z)) (preds : list (string * list fmla)) (mb : membr).
Variable G : scope.
Hypothesis DS : vdoms N = ds.
Notation p := (m_pc mb).
Notation u := (use_of lets preds mb).
Hypothesis DECL : declares ds F (Some u) G.
Notation b := (index_of idx_name mb).
Notation own := (own_wvbls N p).
Hypothesis ONCE : NoDup own.
Notation cell := (cell G b).
Notation is_assigned := (is_assigned G b).

Definition sets (l : list assignment) (s t : list nat) : Prop :=
  forall x i e v, In (ASet x i (Some e)) l -> cell x i s = Some v ->
    exists z, value_of G b e s = Some z /\ Z.of_nat (nth v t 0) = (z mod Z.of_nat (nth v ds 0%nat))%Z.
Definition defined (l : list assignment) : Prop :=
  forall x i e, In (ASet x i e) l -> exists v, In v own /\ In v (p_vbls p) /\ v < length ds /\ forall s, ok s -> cell x i s = Some v.

Lemma lookup_member : forall x k v, lookup_vbl F (Some u) x k = Some v ->
  exists l, assoc x (g_arrays G) = Some l /\ member l k = Some v /\ v < length ds /\ In v (p_vbls p).
Proof.
  intros x k v E. unfold lookup_vbl in E. rewrite (d_arrays _ _ _ _ DECL) in E. destruct (assoc x (g_arrays G)) as [l|] eqn:A; [|discriminate].
  destruct (nth_error l (umod_int k (length l))) as [w|] eqn:NE; [|discriminate]. destruct (existsb _ _) eqn:X; [|discriminate]. injection E as <-.
  exists l. split; auto. split; [exact NE|]. split.
  - destruct (d_members _ _ _ _ DECL _ _ A) as (_ & M). eapply Forall_forall in M; eauto. eapply nth_error_In; eauto.
  - apply existsb_exists in X. destruct X as (y & Y & E). apply Nat.eqb_eq in E. subst. exact Y.
Qed.

Lemma own_length : length own = nw (kind_of N p).
Proof. unfold own_wvbls. rewrite map_length, seq_length. auto. Qed.
Lemma own_nth : forall w, w < nw (kind_of N p) -> nth w own 0 = wvbl N p w.
Proof. intros w W. unfold own_wvbls. rewrite nth_map0 by (rewrite seq_length; auto). rewrite seq_nth; auto. Qed.

(** ** The loop over the assignments *)
Record inv (guard : fmla) (auto : bool) (l : list assignment) (g : progress) : Prop := mkInv {
  i_same : same_map (g_map g) b;
  i_def : defined l;
  i_xn : forall a i s, ok a -> ok i -> ok s -> (eval (g_xn g) (join a i s) = true <-> now guard s = true /\ sets l s i);
  i_len : length (g_assigned g) = nw (kind_of N p);
  i_asg : forall w s, w < nw (kind_of N p) -> ok s -> (nth w (g_assigned g) false = true <-> is_assigned l (wvbl N p w) s);
  i_loop : forall s, ok s -> (g_loops g = true <->
             exists w, w < nw (kind_of N p) /\ synt_writeonly_ck (waccess (kind_of N p) w) = true /\ is_assigned l (wvbl N p w) s);
  i_iden : g_iden g = true <-> auto = true \/ In AKeepRest l;
  i_wild : g_wild g = true <-> In AAnyRest l
}.

Lemma assigned_snoc : forall l a v s, is_assigned (l ++ [a]) v s <-> is_assigned l v s \/ is_assigned [a] v s.
Proof.
  intros l a v s. unfold CmdSpec.is_assigned. split.
  - intros (x & i & e & H & C). apply in_app_iff in H. destruct H; [left|right]; eauto.
  - intros [(x & i & e & H & C)|(x & i & e & H & C)]; exists x, i, e; split; auto; apply in_app_iff; auto.
Qed.

Lemma step_inv : forall guard auto l g a g', inv guard auto l g -> assign_step N F lets preds mb g a = Some g' ->
  (forall x i e, a = ASet x i e -> ~ In AAnyRest l /\ fresh_indices (map fst b) i /\ (forall e', e = Some e' -> fresh_indices (map fst b) e')) ->
  inv guard auto (l ++ [a]) g'.
Proof.
  intros guard auto l g a g' V E FR. destruct a as [| |x i e].
  - injection E as <-. assert (NO : forall v s, ~ is_assigned [AKeepRest] v s) by (intros v s (x & i & e & [H|[]] & _); discriminate).
    destruct V as [A B C D I J K L]. constructor; cbn [g_map g_xn g_assigned g_loops g_iden g_wild]; auto.
    + intros x i e H. apply in_app_iff in H. destruct H as [H|[H|[]]]; [eauto|discriminate].
    + intros a' i s Oa Oi Os. rewrite C by auto. split; intros (H1 & H2); split; auto; intros x i' e v H; [|apply H2, in_app_iff; auto].
      apply in_app_iff in H. destruct H as [H|[H|[]]]; [apply H2; auto|discriminate].
    + intros w s W S. rewrite (I w s W S), assigned_snoc. specialize (NO (wvbl N p w) s). tauto.
    + intros s S. rewrite (J s S). split; intros (w & W & X & Y); exists w; (split; [auto|]); (split; [auto|]); rewrite assigned_snoc in *; specialize (NO (wvbl N p w) s); tauto.
    + split; auto. intros _. right. apply in_app_iff. right. left. auto.
    + rewrite L, in_app_iff. cbn. intuition discriminate.
  - injection E as <-. assert (NO : forall v s, ~ is_assigned [AAnyRest] v s) by (intros v s (x & i & e & [H|[]] & _); discriminate).
    destruct V as [A B C D I J K L]. constructor; cbn [g_map g_xn g_assigned g_loops g_iden g_wild]; auto.
    + intros x i e H. apply in_app_iff in H. destruct H as [H|[H|[]]]; [eauto|discriminate].
    + intros a' i s Oa Oi Os. rewrite C by auto. split; intros (H1 & H2); split; auto; intros x i' e v H; [|apply H2, in_app_iff; auto].
      apply in_app_iff in H. destruct H as [H|[H|[]]]; [apply H2; auto|discriminate].
    + intros w s W S. rewrite (I w s W S), assigned_snoc. specialize (NO (wvbl N p w) s). tauto.
    + intros s S. rewrite (J s S). split; intros (w & W & X & Y); exists w; (split; [auto|]); (split; [auto|]); rewrite assigned_snoc in *; specialize (NO (wvbl N p w) s); tauto.
    + rewrite K, in_app_iff. cbn. intuition discriminate.
    + split; auto. intros _. apply in_app_iff. right. left. auto.
  - destruct (FR x i e eq_refl) as (NW & FI & FE). clear FR. cbn [assign_step] in E. rewrite DS in E.
    destruct V as [A B C D I J K L].
    destruct (eval_i ds F (Some u) (g_map g) i) as [(z, m1)|] eqn:EI; [|discriminate].
    destruct (sound ds INH F (Some u) G DECL i (g_map g) b (map fst b) A (keys b) FI) as (_ & HI). destruct (HI _ _ EI) as (M1 & (TZ & VZ)). clear HI.
    destruct (i_map z) as [|k [|]] eqn:MZ; try discriminate.
    destruct (lookup_vbl F (Some u) x k) as [v|] eqn:LV; [|discriminate]. destruct (lookup_member x k v LV) as (cells & AR & MB & BV & RV).
    assert (CELL : forall s, ok s -> cell x i s = Some v).
    { intros s S. unfold CmdSpec.cell. rewrite VZ, AR by auto. rewrite (single ds z k TZ MZ s S). exact MB. }
    assert (WILD : g_wild g = false) by (destruct (g_wild g); auto; exfalso; apply NW, L; auto). rewrite WILD in E.
    set (vals := match e with None => _ | Some _ => _ end) in E.
    assert (VALS : forall val m2, vals = Some (val, m2) -> same_map m2 b /\
              match e with None => val = None | Some e' => exists y, val = Some y /\ is_value ds G b e' y end).
    { intros val m2 EV. unfold vals in EV. destruct e as [e'|]; [|injection EV as <- <-; auto].
      destruct (eval_i ds F (Some u) m1 e') as [(y, m3)|] eqn:EE; [|discriminate]. cbn in EV. injection EV as <- <-.
      destruct (sound ds INH F (Some u) G DECL e' m1 b (map fst b) M1 (keys b) (FE e' eq_refl)) as (_ & HE). destruct (HE _ _ EE) as (M2 & HV). eauto. }
    destruct vals as [(val, m2)|]; [|discriminate]. destruct (VALS val m2 eq_refl) as (M2 & HV). clear VALS.
    destruct (position v own) as [w|] eqn:PW; [|discriminate]. apply position_some in PW. destruct PW as (W & WV). rewrite own_length in W. rewrite own_nth in WV by auto.
    assert (XN : exists xn, (match val with None => Some (g_xn g) | Some y => set_vbl N (g_xn g) v y end) = Some xn /\
        forall a' i' s, ok a' -> ok i' -> ok s -> (eval xn (join a' i' s) = true <-> now guard s = true /\ sets (l ++ [ASet x i e]) s i')).
    { destruct e as [e'|].
      - destruct HV as (y & -> & (TY & VY)). destruct (set_vbl_spec N (g_xn g) v y DS BV TY) as (xn & SV & H). exists xn. split; auto.
        intros a' i' s Oa Oi Os. rewrite H, C by auto. split.
        + intros ((H1 & H2) & H3). split; auto. intros x0 i0 e0 v0 IN CV. apply in_app_iff in IN. destruct IN as [IN|[IN|[]]]; [eapply H2; eauto|].
          injection IN as <- <- <-. rewrite CELL in CV by auto. injection CV as <-. exists (entry y s). split; auto.
        + intros (H1 & H2). split; [split; auto; intros x0 i0 e0 v0 IN; apply H2, in_app_iff; auto|].
          destruct (H2 x i e' v) as (q & Q1 & Q2); [apply in_app_iff; right; left; auto|auto|]. rewrite VY in Q1 by auto. injection Q1 as <-. auto.
      - subst val. exists (g_xn g). split; auto. intros a' i' s Oa Oi Os. rewrite C by auto.
        split; intros (H1 & H2); split; auto; intros x0 i0 e0 v0 IN; [|apply H2, in_app_iff; auto].
        apply in_app_iff in IN. destruct IN as [IN|[IN|[]]]; [apply H2; auto|discriminate]. }
    destruct XN as (xn & EX & HX). rewrite EX in E. injection E as <-.
    assert (ONE : forall w' s, w' < nw (kind_of N p) -> ok s -> (is_assigned [ASet x i e] (wvbl N p w') s <-> w' = w)).
    { intros w' s W' S. split.
      - intros (x0 & i0 & e0 & [IN|[]] & CV). injection IN as <- <- <-. rewrite CELL in CV by auto. injection CV as CV.
        rewrite <- WV in CV. apply (NoDup_nth own 0) with (i := w') (j := w) in ONCE; auto; rewrite ?own_length; auto. rewrite !own_nth; auto.
      - intros ->. exists x, i, e. split; [left; auto|]. rewrite CELL, WV by auto. auto. }
    constructor; cbn [g_map g_xn g_assigned g_loops g_iden g_wild]; auto.
    + intros x0 i0 e0 IN. apply in_app_iff in IN. destruct IN as [IN|[IN|[]]]; [eauto|]. injection IN as <- <- <-.
      exists v. split; [|auto]. rewrite <- WV, <- own_nth by auto. apply nth_In. rewrite own_length. auto.
    + rewrite upd_length. auto.
    + intros w' s W' S. rewrite assigned_snoc, (ONE w' s W' S), <- (I w' s W' S), nth_upd, D.
      destruct (Nat.eqb_spec w' w) as [EQ|NEQ]; cbn [andb].
      * subst w'. apply Nat.ltb_lt in W. rewrite W. tauto.
      * tauto.
    + intros s S. rewrite orb_true_iff, (J s S). split.
      * intros [(w' & W' & X & Y)|X]; [exists w'|exists w]; (split; [auto|]); (split; [auto|]); rewrite assigned_snoc; auto. right. apply ONE; auto.
      * intros (w' & W' & X & Y). rewrite assigned_snoc in Y. destruct Y as [Y|Y]; [left; eauto|right]. apply ONE in Y; auto. subst. auto.
    + rewrite K, in_app_iff. cbn. intuition discriminate.
    + rewrite in_app_iff. cbn. split; [discriminate|]. intros [Q|[Q|[]]]; [contradiction|discriminate].
Qed.

Lemma loop_inv : forall guard auto l2 l1 g g', inv guard auto l1 g -> any_last (l1 ++ l2) ->
  (forall x i e, In (ASet x i e) l2 -> fresh_indices (map fst b) i /\ (forall e', e = Some e' -> fresh_indices (map fst b) e')) ->
  assign_loop N F lets preds mb g l2 = Some g' -> inv guard auto (l1 ++ l2) g'.
Proof.
  intros guard auto l2. induction l2 as [|a l2 IH]; intros l1 g g' V LAST FR E; cbn [assign_loop] in E.
  - injection E as <-. rewrite app_nil_r. auto.
  - destruct (assign_step N F lets preds mb g a) as [g1|] eqn:E1; [|discriminate]. replace (l1 ++ a :: l2) with ((l1 ++ [a]) ++ l2) in * by (rewrite <- app_assoc; auto).
    apply (IH _ g1); auto; [|intros x i e H; exact (FR x i e (or_intror H))].
    eapply step_inv; eauto. intros x i e ->. split; [|exact (FR x i e (or_introl eq_refl))].
    intros IN. apply in_split in IN. destruct IN as (k1 & k2 & ->). apply (LAST k1 (k2 ++ [ASet x i e] ++ l2)) with (x := x) (i := i) (e := e).
    + rewrite <- !app_assoc. auto.
    + apply in_app_iff. right. left. auto.
Qed.

(** ** After the loop *)
Hypothesis KNOWN : wf_ids ds own.
(** The written variables that keep their value when nothing is said. *)
Definition kept (cut : bool) : list nat :=
  map (wvbl N p) (filter (fun w => negb (cut && random_write_ck (waccess (kind_of N p) w))) (seq 0 (nw (kind_of N p)))).

Lemma keep_if : forall (c : nat -> bool) l x a i s, (forall w, In w l -> wvbl N p w < length ds) -> ok a -> ok i -> ok s ->
  (eval (fold_left (fun x w => if c w then and_PFmla x (img_eq_PFmlaVbl ds (wvbl N p w) (wvbl N p w)) else x) l x) (join a i s) = true <->
   eval x (join a i s) = true /\ forall w, In w l -> c w = true -> nth (wvbl N p w) i 0 = nth (wvbl N p w) s 0).
Proof.
  intros c l. induction l as [|w l IH]; intros x a i s K A I S; cbn [fold_left].
  - split; [intros H; split; auto; intros w []|tauto].
  - assert (KL : forall w0, In w0 l -> wvbl N p w0 < length ds) by (intros w0 H; apply K; right; auto). destruct (c w) eqn:C.
    + rewrite IH, eval_and, andb_true_iff by auto.
      assert (V : wvbl N p w < length ds) by (apply K; left; auto). rewrite ev_img_eq, Nat.eqb_eq by auto. unfold domsz. rewrite Nat.mod_small by (apply ok_nth; auto).
      split; [intros ((H1 & H2) & H3)|intros (H1 & H2)]; repeat split; auto.
      * intros w' [<-|IN] CW; auto.
      * apply H2; auto. left. auto.
      * intros w' IN. apply H2. right. auto.
    + rewrite IH by auto. split; intros (H1 & H2); split; auto.
      * intros w' [<-|IN] CW; [congruence|auto].
      * intros w' IN. apply H2. right. auto.
Qed.

Lemma keep_rest_spec : forall guard auto l g cut a i s, inv guard auto l g -> ok a -> ok i -> ok s ->
  (eval (keep_rest N mb cut g) (join a i s) = true <-> now guard s = true /\ sets l s i /\
   (keeps_rest auto l -> forall v, In v (kept cut) -> ~ is_assigned l v s -> nth v i 0 = nth v s 0)).
Proof.
  intros guard auto l g cut a i s V A I S. unfold keep_rest. rewrite DS.
  assert (KW : forall w, In w (seq 0 (nw (kind_of N p))) -> wvbl N p w < length ds).
  { intros w W. unfold FmlaSpec.wf_ids in KNOWN. rewrite Forall_forall in KNOWN. apply KNOWN. unfold own_wvbls. apply in_map. auto. }
  rewrite (keep_if (rest_kept N mb cut g) (seq 0 (nw (kind_of N p))) (g_xn g) a i s KW A I S), (i_xn _ _ _ _ V a i s A I S).
  assert (E : (forall w, In w (seq 0 (nw (kind_of N p))) -> rest_kept N mb cut g w = true -> nth (wvbl N p w) i 0 = nth (wvbl N p w) s 0) <->
    (keeps_rest auto l -> forall v, In v (kept cut) -> ~ is_assigned l v s -> nth v i 0 = nth v s 0)).
  { unfold rest_kept, keeps_rest. rewrite <- (i_iden _ _ _ _ V), <- (i_wild _ _ _ _ V). split.
    - intros H (K1 & K2) v Hv NA. unfold kept in Hv. apply in_map_iff in Hv. destruct Hv as (w & <- & Hw). apply filter_In in Hw. destruct Hw as (W & R).
      apply H; auto. apply in_seq in W. rewrite K1, R. destruct (g_wild g); [exfalso; auto|]. cbn [negb andb]. rewrite andb_true_r.
      destruct (nth w (g_assigned g) false) eqn:AS; auto. exfalso. apply NA. apply (i_asg _ _ _ _ V w s); auto. lia.
    - intros H w W R. apply andb_true_iff in R. destruct R as (R & R4). apply andb_true_iff in R. destruct R as (R & R3). apply andb_true_iff in R. destruct R as (R1 & R2).
      apply H.
      + split; auto. intros C. rewrite C in R2. discriminate.
      + unfold kept. apply in_map, filter_In. auto.
      + intros C. apply in_seq in W. apply (i_asg _ _ _ _ V w s) in C; auto; [|lia]. rewrite C in R3. discriminate. }
  tauto.
Qed.

Lemma redraw_spec : forall guard (R : list nat -> list nat -> Prop) vs x, wf_ids ds vs -> static ds guard ->
  (forall a i s, ok a -> ok i -> ok s -> (eval x (join a i s) = true <-> R s i)) ->
  forall a i s, ok a -> ok i -> ok s ->
  (eval (fold_left (fun x v => if random_ck N v then and_PFmla guard (smooth_vbls ds x [v] Pre) else x) vs x) (join a i s) = true <->
   exists s0, ok s0 /\ redrawn ds (fun s => now guard s = true) (rev (filter (random_ck N) vs)) s s0 /\ R s0 i).
Proof.
  intros guard R vs. revert R. induction vs as [|v vs IH]; intros R x W ST X a i s A I S; cbn [fold_left filter rev].
  - rewrite X by auto. cbn [redrawn]. split; [intros H; exists s; auto|intros (s0 & _ & -> & H); auto].
  - assert (V : v < length ds) by (inversion W; auto). assert (W0 : FmlaSpec.wf_ids ds vs) by (inversion W; auto). destruct (random_ck N v) eqn:RV.
    + rewrite (IH (fun s i => now guard s = true /\ exists s1, ok s1 /\ agree_off ds [v] s1 s /\ R s1 i)); auto.
      * cbn [rev]. assert (SN : forall l s1 s0, ok s1 -> (redrawn ds (fun s => now guard s = true) (l ++ [v]) s1 s0 <->
            exists s2, redrawn ds (fun s => now guard s = true) l s1 s2 /\ now guard s2 = true /\ ok s0 /\ agree_off ds [v] s0 s2)).
        { induction l as [|y l IHl]; intros s1 s0 S1; cbn [app redrawn].
          - split.
            + intros (H1 & s3 & H2 & H3 & ->). exists s1. auto.
            + intros (s2 & -> & H1 & H2 & H3). split; auto. exists s0. auto.
          - split.
            + intros (H1 & s3 & H2 & H3 & H4). apply IHl in H4; auto. destruct H4 as (s2 & H4 & H5). exists s2. split; auto. split; auto. exists s3. auto.
            + intros (s2 & (H1 & s3 & H2 & H3 & H4) & H5). split; auto. exists s3. split; auto. split; auto. apply IHl; auto. exists s2. auto. }
        split.
        -- intros (s2 & S2 & H1 & H2 & s0 & S0 & H3 & H4). exists s0. split; auto. split; auto. apply SN; auto. exists s2. auto.
        -- intros (s0 & S0 & H1 & H2). apply SN in H1; auto. destruct H1 as (s2 & H3 & H4 & _ & H5). exists s2.
           assert (S2 : ok s2). { clear - H3 S. revert s S H3. induction (rev (filter (random_ck N) vs)) as [|y l IHl]; cbn [redrawn]; intros s S H3; [subst; auto|].
             destruct H3 as (_ & s3 & S3 & _ & H3). eapply IHl; eauto. }
           split; auto. split; auto. split; auto. exists s0. auto.
      * intros a' i' s' A' I' S'. rewrite eval_and, andb_true_iff. rewrite (ST a' i' s') by auto. rewrite ev_smooth_vbls by (auto; repeat constructor; auto).
        split.
        -- intros (H1 & a2 & i2 & s2 & A2 & I2 & S2 & -> & -> & H2 & H3). split; auto. exists s2. split; auto. split; auto. apply (X a' i' s2); auto.
        -- intros (H1 & s2 & S2 & H2 & H3). split; auto. exists a', i', s2. do 3 (split; [auto|]). do 3 (split; [auto|]). apply X; auto.
    + apply IH; auto.
Qed.

(** ** All but the removal of cycles *)
Hypothesis READS : wf_ids ds (p_vbls p).
Hypothesis ACC : length (p_vbls p) = nr (kind_of N p).
Definition redrawn_vbls : list nat := rev (filter (random_ck N) (p_vbls p)).
(** The steps of the action before cycles are removed. *)
Definition raw_step (auto cut : bool) (act : action) (s t : list nat) : Prop :=
  exists s0, ok s0 /\ redrawn ds (fun s => truth G b (a_guard act) s = Some true) redrawn_vbls s s0 /\
  command_step ds G b auto (kept cut) act s0 t.
Definition drops_loops (l : list assignment) (s : list nat) : Prop :=
  exists w, w < nw (kind_of N p) /\ synt_writeonly_ck (waccess (kind_of N p) w) = true /\ is_assigned l (wvbl N p w) s.

Lemma redrawn_ext : forall (g g' : list nat -> Prop) l s s0, ok s -> (forall s, ok s -> (g s <-> g' s)) ->
  (redrawn ds g l s s0 <-> redrawn ds g' l s s0).
Proof.
  intros g g' l. induction l as [|v l IH]; intros s s0 S E; cbn [redrawn]; [tauto|]. rewrite (E s S).
  split; intros (H1 & s1 & S1 & H2 & H3); split; auto; exists s1; split; auto; split; auto; apply (IH s1 s0 S1 E); auto.
Qed.

Lemma before_cut : forall auto act guard m g, fresh_command (map fst b) act -> any_last (a_assigns act) ->
  eval_f (vdoms N) F (Some u) b (a_guard act) = Some (guard, m) ->
  assign_loop N F lets preds mb (mkProgress guard (repeat false (nw (kind_of N p))) false auto false m) (a_assigns act) = Some g ->
  (forall a i s, ok a -> ok i -> ok s ->
    (eval (redraw N mb guard (keep_rest N mb (a_cut act) g)) (join a i s) = true <-> raw_step auto (a_cut act) act s i)) /\
  inv guard auto (a_assigns act) g.
Proof.
  intros auto act guard m g (FG & FA) LAST EG EL. rewrite DS in EG.
  destruct (sound ds INH F (Some u) G DECL (a_guard act) b b (map fst b) (fun x => eq_refl) (keys b) FG) as (H & _).
  destruct (H _ _ EG) as (M & (ST & TG)). clear H.
  assert (IV : inv guard auto (a_assigns act) g).
  { change (a_assigns act) with ([] ++ a_assigns act). eapply loop_inv; eauto. constructor; cbn [g_map g_xn g_assigned g_loops g_iden g_wild]; auto.
    - intros x i e [].
    - intros a i s A I S. rewrite (ST a i s) by auto. split; [intros H; split; auto; intros x i' e v []|tauto].
    - apply repeat_length.
    - intros w s W S. rewrite nth_repeat. split; [discriminate|]. intros (x & i & e & [] & _).
    - intros s S. split; [discriminate|]. intros (w & _ & _ & (x & i & e & [] & _)).
    - split; auto. intros [H|[]]; auto.
    - split; [discriminate|intros []]. }
  split; auto. intros a i s A I S. unfold redraw. rewrite DS.
  assert (GT : forall s, ok s -> (now guard s = true <-> truth G b (a_guard act) s = Some true)).
  { intros s' S'. rewrite (TG s') by auto. split; [intros ->; auto|intros E; injection E; auto]. }
  rewrite (redraw_spec guard (command_step ds G b auto (kept (a_cut act)) act) (p_vbls p) _ READS ST); auto.
  - unfold raw_step. assert (RE : forall s0, redrawn ds (fun s => now guard s = true) redrawn_vbls s s0 <->
        redrawn ds (fun s => truth G b (a_guard act) s = Some true) redrawn_vbls s s0) by (intros s0; apply redrawn_ext; auto).
    split; intros (s0 & S0 & H1 & H2); exists s0; (split; [auto|]); (split; [apply RE; exact H1|auto]).
  - intros a' i' s' A' I' S'. rewrite (keep_rest_spec guard auto (a_assigns act) g) by auto. rewrite (GT s' S').
    split; [intros (H1 & H2 & H3); constructor; auto|intros [H1 H2 H3]; auto].
Qed.


(** ** Removal of cycles *)
Definition hidden (r : role) : list nat :=
  match r with Shadow => filter (is_puppet N) (all_ids ds) | _ => filter (is_shadow N) (all_ids ds) end.

Lemma agree_nil : forall s t, ok s -> ok t -> agree_off ds [] s t -> s = t.
Proof.
  intros s t S T H. apply list_ext_nth with (d := 0); [rewrite (ok_length ds s S), (ok_length ds t T); auto|].
  intros k K. apply H; auto. rewrite <- (ok_length ds s S). auto.
Qed.
Lemma smooth_some_spec : forall (R : list nat -> list nat -> Prop) l x, wf_ids ds l ->
  (forall a i s, ok a -> ok i -> ok s -> (eval x (join a i s) = true <-> R s i)) ->
  forall a i s, ok a -> ok i -> ok s -> (eval (smooth_some N l x) (join a i s) = true <->
    exists s' t', ok s' /\ ok t' /\ agree_off ds l s' s /\ agree_off ds l t' i /\ R s' t').
Proof.
  intros R l x W X a i s A I S. unfold smooth_some. rewrite DS. destruct (Nat.eqb_spec (length l) 0) as [L|_].
  - destruct l; [|discriminate]. rewrite X by auto. split.
    + intros H. exists s, i. repeat split; auto.
    + intros (s' & t' & S' & T' & H1 & H2 & H). rewrite <- (agree_nil s' s), <- (agree_nil t' i) by auto. auto.
  - rewrite ev_smooth_vbls by auto. split.
    + intros (a' & i' & s' & A' & I' & S' & _ & H1 & H2 & H3). exists s', i'. do 4 (split; [auto|]). apply (X a' i' s'); auto.
    + intros (s' & t' & S' & T' & H1 & H2 & H). exists a, t', s'. do 3 (split; [auto|]). split; [intros k K NI; auto|]. do 2 (split; [auto|]). apply X; auto.
Qed.
Lemma smooth_img_fold : forall l x (Q : list nat -> list nat -> Prop), wf_ids ds l ->
  (forall a i s, ok a -> ok i -> ok s -> (eval x (join a i s) = true <-> Q s i)) ->
  forall a i s, ok a -> ok i -> ok s ->
  (eval (fold_left (fun y v => smooth_vbls ds y [v] Img) l x) (join a i s) = true <-> exists t, ok t /\ agree_off ds l t i /\ Q s t).
Proof.
  intros l. induction l as [|v l IH]; intros x Q W X a i s A I S; cbn [fold_left].
  - rewrite X by auto. split; [intros H; exists i; repeat split; auto|]. intros (t & T & H & K). rewrite <- (agree_nil t i) by auto. auto.
  - assert (V : v < length ds) by (inversion W; auto). assert (W0 : FmlaSpec.wf_ids ds l) by (inversion W; auto).
    rewrite (IH _ (fun s t => exists t', ok t' /\ agree_off ds [v] t' t /\ Q s t')); auto.
    + split.
      * intros (t & T & H & t' & T' & H' & K). exists t'. split; auto. split; auto. intros k KB NI. rewrite H', H; auto; intros C; apply NI; [right; auto|destruct C as [<-|[]]; left; auto].
      * intros (t & T & H & K). exists (over ds [v] i t). split; [apply over_ok; auto|]. split.
        -- intros k KB NI. destruct (Nat.eq_dec k v) as [->|NE].
           ++ rewrite over_in; auto. left. auto.
           ++ rewrite over_out by (auto; intros [C|[]]; auto). apply H; auto. intros [C|C]; auto.
        -- exists t. split; auto. split; auto. intros k KB NI. rewrite over_out; auto.
    + intros a' i' s' A' I' S'. rewrite ev_smooth_vbls by (auto; repeat constructor; auto). split.
      * intros (a2 & i2 & s2 & A2 & I2 & S2 & -> & H1 & -> & H2). exists i2. split; auto. split; auto. apply (X a' i2 s'); auto.
      * intros (t' & T' & H1 & H2). exists a', t', s'. do 3 (split; [auto|]). do 3 (split; [auto|]). apply X; auto.
Qed.

Lemma fixed_known : forall r, wf_ids ds (fixed_vbls N mb r).
Proof.
  intros r. unfold fixed_vbls. apply Forall_forall. intros v Hv. apply in_map_iff in Hv. destruct Hv as (i & <- & Hi).
  unfold rvbl. destruct (lt_dec i (length (p_vbls p))) as [L|L].
  - unfold FmlaSpec.wf_ids in READS. rewrite Forall_forall in READS. apply READS, nth_In. auto.
  - apply filter_In in Hi. destruct Hi as (Hi & _). apply in_seq in Hi. exfalso. apply L. rewrite ACC. lia.
Qed.
Lemma hidden_known : forall r, wf_ids ds (hidden r).
Proof.
  intros r. unfold hidden. apply Forall_forall. intros v Hv.
  assert (A : In v (all_ids ds)) by (destruct r; apply filter_In in Hv; tauto). unfold all_ids in A. apply in_seq in A. lia.
Qed.

Lemma cut_spec : forall r x (R : list nat -> list nat -> Prop),
  (forall a i s, ok a -> ok i -> ok s -> (eval x (join a i s) = true <-> R s i)) ->
  exists y, cut_cycles N mb r x = Some y /\
  forall a i s, ok a -> ok i -> ok s ->
    (eval y (join a i s) = true <-> R s i /\ ~ cyclic ds R (hidden r) (fixed_vbls N mb r) s i).
Proof.
  intros r x R X. unfold cut_cycles. set (lx := local_xn N mb r x).
  assert (LX : forall a i s, ok a -> ok i -> ok s -> (eval lx (join a i s) = true <-> seen ds R (hidden r) (fixed_vbls N mb r) s i)).
  { intros a i s A I S. unfold lx, local_xn. rewrite DS, (keep_fold _ _ a i s (fixed_known r) A I S). unfold seen.
    assert (P : eval (match r with Shadow => proj_shadow N x | _ => proj_puppet N x end) (join a i s) = true <->
       exists s' t', ok s' /\ ok t' /\ agree_off ds (hidden r) s' s /\ agree_off ds (hidden r) t' i /\ R s' t').
    { pose proof (hidden_known r) as HK. destruct r; unfold hidden, proj_shadow, proj_puppet in *; rewrite DS; apply smooth_some_spec; auto. }
    rewrite P. tauto. }
  assert (TL : trans_fmla ds lx) by (intros a a' i s A A' I S; unfold meaning; rewrite (LX a i s), (LX a' i s) by auto; tauto).
  destruct (scc_found ds INH lx TL) as (scc & E & ST & H). rewrite DS, E.
  assert (XR : forall s t, xrel ds lx s t <-> seen ds R (hidden r) (fixed_vbls N mb r) s t).
  { intros s t. unfold xrel, FmlaSpec.steps, meaning. split.
    - intros (S & T & K). apply (LX s t s); auto.
    - intros K. assert (K' := K). destruct K' as (S & T & _). split; auto. split; auto. apply LX; auto. }
  assert (BW : forall s, ok s -> (holds scc s <-> between_cycles (list nat) (seen ds R (hidden r) (fixed_vbls N mb r)) (fun _ => True) s)).
  { intros s S. rewrite (H s S). unfold between_cycles, on_cycle, reaches.
    pose proof (steps_iff (list nat) _ _ XR) as SI. split; intros (c1 & c2 & _ & (n1 & H1) & (n2 & H2) & (n3 & H3) & (n4 & H4)); exists c1, c2; (split; [auto|]);
      apply SI in H1, H2, H3, H4; eauto 12. }
  destruct (sat_ck ds scc) eqn:SAT.
  - eexists. split; [reflexivity|]. intros a i s A I S. rewrite eval_nimp, andb_true_iff, negb_true_iff, (X a i s A I S), <- not_true_iff_false.
    rewrite (smooth_img_fold _ _ (fun s t => seen ds R (hidden r) (fixed_vbls N mb r) s t /\ holds scc s /\ holds scc t) (fixed_known r)); auto.
    + unfold cyclic. split; intros (K1 & K2); split; auto; intros (t & T & K3 & K4 & K5 & K6); apply K2; exists t; (split; [auto|]); (split; [auto|]); (split; [auto|]);
        split; apply BW; auto.
    + intros a' i' s' A' I' S'. rewrite eval_and, andb_true_iff, (LX a' i' s' A' I' S').
      unfold cross_PFmla. rewrite eval_and, andb_true_iff, ev_as_img by auto. rewrite (state_eval ds scc ST a' i' s'), (state_eval ds scc ST a' i' i') by auto. unfold holds, meaning. tauto.
  - exists x. split; auto. intros a i s A I S. rewrite (X a i s A I S). split; [|tauto]. intros K. split; auto.
    intros (t & T & _ & _ & K5 & _). apply BW in K5; auto. unfold holds, meaning in K5. rewrite (unsat_static ds INH scc SAT s S) in K5. discriminate.
Qed.

Lemma parse_spec : forall auto r act x, fresh_command (map fst b) act -> any_last (a_assigns act) ->
  parse_action N F idx_name lets preds mb auto r act = Some x ->
  trans_fmla ds x /\ forall s t, ok s -> ok t -> (FmlaSpec.steps x s t <->
    raw_step auto (a_cut act) act s t /\
    (a_cut act = true -> ~ cyclic ds (raw_step auto true act) (hidden r) (fixed_vbls N mb r) s t) /\
    (drops_loops (a_assigns act) s -> exists v, In v own /\ nth v t 0 <> nth v s 0)).
Proof.
  intros auto r act x FR LAST E. unfold parse_action in E.
  destruct (eval_f (vdoms N) F (Some u) b (a_guard act)) as [(guard, m)|] eqn:EG; [|discriminate].
  destruct (assign_loop _ _ _ _ _ _ _) as [g|] eqn:EL; [|discriminate].
  destruct (before_cut auto act guard m g FR LAST EG EL) as (B & IV).
  set (y0 := redraw _ _ _ _) in *.
  assert (CUT : exists y, (if a_cut act then cut_cycles N mb r y0 else Some y0) = Some y /\
     forall a i s, ok a -> ok i -> ok s -> (eval y (join a i s) = true <-> raw_step auto (a_cut act) act s i /\
       (a_cut act = true -> ~ cyclic ds (raw_step auto true act) (hidden r) (fixed_vbls N mb r) s i))).
  { destruct (a_cut act).
    - destruct (cut_spec r y0 _ B) as (y & EY & H). exists y. split; auto. intros a i s A I S. rewrite (H a i s A I S). tauto.
    - exists y0. split; auto. intros a i s A I S. rewrite (B a i s A I S). intuition discriminate. }
  destruct CUT as (y & EY & BY). rewrite EY in E. injection E as <-.
  assert (L : forall a i s, ok a -> ok i -> ok s -> (eval (if g_loops g then cut_loops N mb y else y) (join a i s) = true <->
     raw_step auto (a_cut act) act s i /\ (a_cut act = true -> ~ cyclic ds (raw_step auto true act) (hidden r) (fixed_vbls N mb r) s i) /\
     (drops_loops (a_assigns act) s -> exists v, In v own /\ nth v i 0 <> nth v s 0))).
  { intros a i s A I S. pose proof (i_loop _ _ _ _ IV s S) as LP. fold (drops_loops (a_assigns act) s) in LP. rewrite <- LP. destruct (g_loops g).
    - unfold cut_loops, keep_own. rewrite eval_nimp, andb_true_iff, negb_true_iff, (BY a i s A I S), DS.
      rewrite <- not_true_iff_false. rewrite (keep_fold own (Cst true) a i s KNOWN A I S). cbn [eval].
      assert (D : (exists v, In v own /\ nth v i 0 <> nth v s 0) <-> ~ forall v, In v own -> nth v i 0 = nth v s 0).
      { split; [intros (v & V & NE) H; auto|]. intros H. clear - H. induction own as [|v l IH]; [exfalso; apply H; intros v []|].
        destruct (Nat.eq_dec (nth v i 0) (nth v s 0)) as [EQ|NE]; [|exists v; split; [left; auto|auto]].
        destruct IH as (v' & V' & NE'); [|exists v'; split; [right; auto|auto]]. intros H'. apply H. intros v' [<-|V']; auto. }
      rewrite D. intuition.
    - rewrite (BY a i s A I S). intuition discriminate. }
  split.
  - intros a a' i s A A' I S. unfold meaning. rewrite (L a i s), (L a' i s) by auto. tauto.
  - intros s t S T. unfold FmlaSpec.steps, meaning. apply L; auto.
Qed.
End Process.
End P.
