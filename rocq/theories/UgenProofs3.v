(** Generated UDP code: the functions printed per kind, and the actions. *)
From Coq Require Import NArith.
From Verif Require Import UdpModel.
From Coq Require Import List Arith Bool Lia.
From Verif Require Import FinLib Radix FmlaModel FmlaSpec FmlaProofs FmlaProofs2 FmlaProofs3 FmlaProofs4 FmlaProps
  ActModel ActSpec ActProofs ActProofs2 ActProofs4 ActProps NetModel NetSpec NetProofs NetProofs2 NetProofs3 NetProofs4 NetProofs5
  CandModel CandSpec CandProofs GivenSpec GivenProofs UgenModel UgenProofs UgenSpec UgenProofs2.
Import ListNotations.

(** ** Cut-offs *)
Lemma sorted_count : forall l k i, (forall i i', i < i' -> i' < length l -> nth i l 0 <= nth i' l 0) -> i < length l ->
  (i < length (filter (fun x => x <? k) l) <-> nth i l 0 < k).
Proof.
  induction l as [|x l IH]; intros k i H L; [cbn in L; lia|]. cbn [filter length] in *.
  assert (H' : forall i i', i < i' -> i' < length l -> nth i l 0 <= nth i' l 0) by (intros a b A B; apply (H (S a) (S b)); lia).
  destruct (Nat.ltb_spec x k).
  - destruct i as [|i]; cbn [nth length]; [split; intros; lia|]. rewrite <- IH by (auto; lia). lia.
  - assert (Z : forall y, In y l -> k <= y).
    { intros y Hy. apply In_nth with (d := 0) in Hy. destruct Hy as (m & M & <-). specialize (H 0 (S m) ltac:(lia) ltac:(lia)). cbn in H. lia. }
    assert (E : filter (fun x => x <? k) l = []).
    { clear -Z. induction l as [|y l IH]; cbn [filter]; auto. destruct (Nat.ltb_spec y k).
      - specialize (Z y (or_introl eq_refl)). lia.
      - apply IH. intros; apply Z; cbn; auto. }
    rewrite E. cbn [length]. split; [lia|]. intros X. exfalso. destruct i as [|i]; cbn [nth] in X; [lia|].
    assert (I : In (nth i l 0) l) by (apply nth_In; lia). specialize (Z (nth i l 0) I). lia.
Qed.
Lemma membs_count : forall N k, length (membs N k) = length (filter (fun x => x =? k) (map p_kind (pcs N))).
Proof.
  intros N k. unfold membs. generalize (pcs N). intros l. generalize 0. induction l as [|p l IH]; intros s; cbn; auto.
  destruct (p_kind p =? k); cbn; rewrite IH; auto.
Qed.
Lemma count_S : forall l k, length (filter (fun x => x <? S k) l) = length (filter (fun x => x <? k) l) + length (filter (fun x => x =? k) l).
Proof.
  induction l as [|x l IH]; intros k; cbn [filter length]; auto. destruct (Nat.ltb_spec x (S k)), (Nat.ltb_spec x k), (Nat.eqb_spec x k); cbn [length]; rewrite ?IH; lia.
Qed.
Lemma membs_nil : forall N k, membs N k = [] <-> forall p, In p (pcs N) -> p_kind p <> k.
Proof.
  intros N k. split.
  - intros H p Hp K. apply In_nth_error in Hp. destruct Hp as (j & Hj). assert (X : In (j, p) (membs N k)) by (apply (membs_in (any_sys N)); auto).
    rewrite H in X. destruct X.
  - intros H. destruct (membs N k) as [|(j, p) l] eqn:E; auto. exfalso. assert (X : In (j, p) (membs N k)) by (rewrite E; cbn; auto).
    apply (membs_in (any_sys N)) in X. destruct X as (X1 & X2). apply (H p); auto. eapply nth_error_In; eauto.
Qed.

Section Kinds.
Variables T O : network.
Hypothesis SP : same_protocol T O.

Lemma kinds_count : forall i p k, nth_error (pcs O) i = Some p -> (i < length (filter (fun x => x <? k) (map p_kind (pcs O))) <-> p_kind p < k).
Proof.
  intros i p k H. assert (L : i < length (pcs O)) by (apply nth_error_Some; congruence).
  assert (E : nth i (map p_kind (pcs O)) 0 = p_kind p).
  { apply nth_error_nth. apply map_nth_error. auto. }
  rewrite <- E. apply sorted_count; rewrite ?map_length; auto. intros a b AB LB.
  destruct (nth_error (pcs O) a) as [pa|] eqn:EA; [|apply nth_error_None in EA; lia].
  destruct (nth_error (pcs O) b) as [pb|] eqn:EB; [|apply nth_error_None in EB; lia].
  rewrite (nth_error_nth _ _ 0 (map_nth_error p_kind a (pcs O) EA)), (nth_error_nth _ _ 0 (map_nth_error p_kind b (pcs O) EB)).
  apply (sp_order T O SP a b); auto.
Qed.
Lemma by_kind_exec : forall A (f : nat -> A) m s i p, nth_error (pcs O) i = Some p -> s <= p_kind p < s + m ->
  exec_chain (by_kind T O f (seq s m) (length (filter (fun x => x <? s) (map p_kind (pcs O))))) i = Some (f (p_kind p)).
Proof.
  intros A f. induction m as [|m IH]; intros s i p H B; [lia|]. cbn [seq by_kind].
  pose proof (membs_count O s) as MC. pose proof (count_S (map p_kind (pcs O)) s) as CS. rewrite <- MC in CS.
  destruct (Nat.eqb_spec (length (membs T s)) 0) as [Z|Z].
  - assert (ZT : membs T s = []) by (destruct (membs T s); [auto|cbn in Z; lia]).
    assert (ZO : membs O s = []).
    { apply membs_nil. intros q Hq K. destruct (sp_used T O SP q Hq) as (q' & H1 & H2 & _). rewrite membs_nil in ZT. apply (ZT q' H1). congruence. }
    assert (NS : p_kind p <> s) by (rewrite membs_nil in ZO; apply ZO; eapply nth_error_In; eauto).
    rewrite ZO in CS. cbn [length] in CS. rewrite Nat.add_0_r in CS. rewrite <- CS. apply IH; auto. lia.
  - cbv zeta. rewrite <- CS. unfold exec_chain. cbn [find fst]. pose proof (kinds_count i p (S s) H) as KC.
    destruct (Nat.ltb_spec i (length (filter (fun x => x <? S s) (map p_kind (pcs O))))) as [L|L].
    + cbn [snd]. f_equal. f_equal. apply KC in L. lia.
    + apply (IH (S s) i p H). enough (~ p_kind p < S s) by lia. intros X. apply KC in X. lia.
Qed.
Lemma all_some_exec : forall A (c : chain (option A)) r i, all_some c = Some r ->
  match exec_chain c i with Some (Some a) => exec_chain r i = Some a | Some None => False | None => exec_chain r i = None end.
Proof.
  induction c as [|(n, o) c IH]; intros r i H; cbn [all_some] in H.
  - injection H as <-. reflexivity.
  - destruct o as [a|]; [|discriminate]. destruct (all_some c) as [r'|] eqn:E; [|discriminate]. injection H as <-.
    unfold exec_chain in *. cbn [find fst]. destruct (i <? n); [reflexivity|]. apply (IH r' i eq_refl).
Qed.
Hypothesis HO : net_ok O.
Lemma per_kind_exec : forall A (f : nat -> A) i p, nth_error (pcs O) i = Some p -> exec_chain (per_kind T O f) i = Some (f (p_kind p)).
Proof.
  intros A f i p H. unfold per_kind. pose proof (no_kind _ HO p (nth_error_In _ _ H)) as K. rewrite (sp_kinds T O SP).
  replace 0 with (length (filter (fun x => x <? 0) (map p_kind (pcs O)))) at 2.
  - apply by_kind_exec; auto. lia.
  - assert (Z : forall l, filter (fun x => x <? 0) l = []) by (induction l; cbn; auto). rewrite Z. reflexivity.
Qed.
Lemma per_kind_some : forall A (f : nat -> option A) r i p, all_some (per_kind T O f) = Some r -> nth_error (pcs O) i = Some p ->
  exists a, f (p_kind p) = Some a /\ exec_chain r i = Some a.
Proof.
  intros A f r i p H Hp. pose proof (all_some_exec _ _ _ i H) as X. rewrite (per_kind_exec _ f i p Hp) in X.
  destruct (f (p_kind p)) as [a|]; [eauto|destruct X].
Qed.
End Kinds.

(** ** Assignments *)
Lemma exec_assign_spec : forall (f : nat -> bool) (h g : nat -> nat) ps pre,
  let places := filter (fun ji => f (snd ji)) (combine (seq (length pre) (length ps)) ps) in
  exec_assign (combine (map fst places) (map (fun ji => h (snd ji)) places)) (pre ++ map g ps) = pre ++ map (fun i => if f i then h i else g i) ps.
Proof.
  intros f h g. induction ps as [|i ps IH]; intros pre; cbn [length seq combine filter map snd]; auto.
  specialize (IH (pre ++ [if f i then h i else g i])). rewrite app_length in IH. cbn [length] in IH. rewrite Nat.add_1_r in IH. cbv zeta in IH.
  rewrite <- !app_assoc in IH. cbn [app] in IH.
  destruct (f i).
  - cbn [map fst snd combine]. unfold exec_assign. cbn [fold_left fst snd].
    assert (E : upd (pre ++ g i :: map g ps) (length pre) (h i) = pre ++ h i :: map g ps).
    { clear. induction pre as [|x pre IH]; cbn; auto. rewrite IH. auto. }
    rewrite E. exact IH.
  - exact IH.
Qed.
Lemma exec_cond_spec : forall pre x, length x = length pre -> (exec_cond (combine (seq 0 (length pre)) pre) x = true <-> x = pre).
Proof.
  intros pre x L. unfold exec_cond. rewrite forallb_forall. split.
  - intros H. apply nth_ext with (d := 0) (d' := 0); auto. intros n Hn. specialize (H (n, nth n pre 0)). cbn [fst snd] in H.
    apply Nat.eqb_eq. apply H. apply in_indexed. split; [lia|]. rewrite Nat.sub_0_r. apply nth_error_nth'. lia.
  - intros ->. intros (i, c) Hc. apply in_indexed in Hc. destruct Hc as (_ & Hc). rewrite Nat.sub_0_r in Hc. cbn [fst snd]. apply Nat.eqb_eq.
    apply nth_error_nth with (d := 0) in Hc. exact Hc.
Qed.

Section Act.
Variable T : network.
Notation ds := (vdoms T).
Notation ok := (FmlaSpec.ok (vdoms T)).
Hypothesis HN : net_ok T.
Let INH : inhabited ds := inh T HN.
Variables (lw : bool) (actions : list nat).
Hypothesis ACTS : proper_actions T actions.

Section Process.
Variables (j : nat) (p : process).
Hypothesis Hj : nth_error (pcs T) j = Some p.
Notation kd := (kind_of T p).
Let Hp : In p (pcs T) := nth_error_In _ _ Hj.

Lemma puppet_lt : forall i, In i (puppets kd) -> i < nr kd.
Proof. intros i H. rewrite <- shown_puppets in H. apply shown_lt in H. exact H. Qed.
Lemma read_ids_wf : wf_ids ds (read_ids T p).
Proof.
  unfold wf_ids, read_ids. apply Forall_forall. intros x Hx. apply in_map_iff in Hx. destruct Hx as (i & <- & Hi).
  apply (no_id _ HN p i Hp). apply puppet_lt; auto.
Qed.
Lemma place_puppet : forall ji, In ji (write_places T p) -> In (snd ji) (puppets kd) /\ write_ck (acc kd (snd ji)) = true.
Proof.
  intros ji H. apply filter_In in H. destruct H as (H & W). split; auto. destruct ji as (i0, i). apply in_combine_r in H. auto.
Qed.
Lemma write_ids_wf : wf_ids ds (write_ids T p).
Proof.
  unfold wf_ids, write_ids. apply Forall_forall. intros x Hx. apply in_map_iff in Hx. destruct Hx as (ji & <- & Hi). apply place_puppet in Hi.
  apply (no_id _ HN p _ Hp). apply puppet_lt; tauto.
Qed.
Lemma cells_eq : forall s, values (read_ids T p) s = cells T p s.
Proof. intros s. unfold values, read_ids, cells. rewrite map_map. change (its_kind T p) with kd. change (shown kd) with (puppets kd). reflexivity. Qed.
Lemma write_ids_in : forall s t, cells T p s = cells T p t -> values (write_ids T p) s = values (write_ids T p) t.
Proof.
  intros s t E. unfold values, write_ids. rewrite !map_map. apply map_ext_in. intros ji H. apply place_puppet in H. destruct H as (H & _).
  unfold cells in E. change (its_kind T p) with kd in E. change (shown kd) with (puppets kd) in E. revert E H. generalize (puppets kd). induction l as [|i l IH]; cbn; intros E H; [tauto|].
  injection E as E1 E2. destruct H as [<-|H]; auto.
Qed.
Lemma after_eq : forall s t, cells_after T p s t = map (fun i => if write_ck (acc kd i) then value t p i else value s p i) (puppets kd).
Proof.
  intros s t. unfold cells_after. change (its_kind T p) with kd. change (shown kd) with (puppets kd). apply map_ext. intros i. unfold write_ck.
  change (access_at T p i) with (acc kd i). destruct (a_type (acc kd i)); reflexivity.
Qed.
Lemma assign_eq : forall s t, exec_assign (combine (map fst (write_places T p)) (values (write_ids T p) t)) (cells T p s) = cells_after T p s t.
Proof.
  intros s t. rewrite after_eq. unfold values, write_ids. rewrite map_map. unfold cells. change (its_kind T p) with kd. change (shown kd) with (puppets kd).
  exact (exec_assign_spec (fun i => write_ck (acc kd i)) (fun i => value t p i) (fun i => value s p i) (puppets kd) []).
Qed.
Lemma same_after : forall s t, values (write_ids T p) s = values (write_ids T p) t <-> cells_after T p s t = cells T p s.
Proof.
  intros s t. rewrite after_eq. unfold cells, values, write_ids. rewrite !map_map. change (its_kind T p) with kd. change (shown kd) with (puppets kd).
  unfold write_places.
  assert (G : forall l n, map (fun x => nth (rvbl p (snd x)) s 0) (filter (fun ji => write_ck (acc kd (snd ji))) (combine (seq n (length l)) l)) =
     map (fun x => nth (rvbl p (snd x)) t 0) (filter (fun ji => write_ck (acc kd (snd ji))) (combine (seq n (length l)) l)) <->
     map (fun i => if write_ck (acc kd i) then value t p i else value s p i) l = map (fun i => value s p i) l).
  { induction l as [|i l IH]; intros n; cbn [length seq combine filter map snd]; [tauto|]. specialize (IH (S n)). destruct (write_ck (acc kd i)); cbn [map snd].
    - unfold value at 1 3. change (vbl_at p i) with (rvbl p i). split; intros E; injection E as E1 E2; f_equal; auto; apply IH; auto.
    - rewrite IH. split; [intros ->; auto|]. intros E. injection E. auto. }
  apply G.
Qed.

Lemma choice_spec : forall fuel pre img, state_fmla ds img -> count T (fun t => eval img (join t t t)) < fuel ->
  exists cs, choice_loop T fuel p pre img = Some cs /\
    forall c, In c cs <-> exists t, ok t /\ holds img t /\ c = combine (map fst (write_places T p)) (values (write_ids T p) t) /\
      subseteq_ck ds pre (of_state ds (values (write_ids T p) t) (write_ids T p)) = false.
Proof.
  induction fuel as [|fuel IH]; intros pre f SF C; [lia|]. cbn [choice_loop]. destruct (sat_ck ds f) eqn:E.
  - destruct (pick_some T HN f (write_ids T p) write_ids_wf E) as (st & -> & b & i & t0 & B & I & T0 & M & V).
    assert (LS : length st = length (write_ids T p)) by (rewrite <- V; unfold values; rewrite map_length; auto).
    assert (H0 : holds f t0) by (unfold holds, meaning; rewrite <- (state_eval ds f SF b i t0 B I T0); auto).
    assert (OS : forall t, ok t -> (holds (of_state ds st (write_ids T p)) t <-> values (write_ids T p) t = st)).
    { intros t Tt. apply (C57_of_state_exact ds st (write_ids T p) write_ids_wf LS t t Tt Tt). }
    cbv zeta. destruct (IH pre (nimp_PFmla f (of_state ds st (write_ids T p)))) as (cs & EL & HL).
    + apply nimp_is_state; auto. apply of_state_is_state. apply write_ids_wf.
    + enough (count T (fun t => eval (nimp_PFmla f (of_state ds st (write_ids T p))) (join t t t)) < count T (fun t => eval f (join t t t))) by lia.
      apply count_mono.
      * intros t Tt H. apply (nimp_state f _ t) in H. apply H.
      * exists t0. split; auto. split; auto. apply not_true_iff_false. intros H. apply (nimp_state f _ t0) in H. destruct H as (_ & H). apply H, OS; auto.
    + rewrite EL. eexists. split; [reflexivity|]. intros c.
      assert (MAIN : (c = combine (map fst (write_places T p)) st /\ subseteq_ck ds pre (of_state ds st (write_ids T p)) = false) \/ In c cs <->
        exists t, ok t /\ holds f t /\ c = combine (map fst (write_places T p)) (values (write_ids T p) t) /\
          subseteq_ck ds pre (of_state ds (values (write_ids T p) t) (write_ids T p)) = false).
      { rewrite HL. split.
        - intros [(-> & X)|(t & Tt & H & X)].
          + exists t0. rewrite V. auto.
          + apply nimp_state in H. exists t. tauto.
        - intros (t & Tt & H & X1 & X2). destruct (list_eq_dec Nat.eq_dec (values (write_ids T p) t) st) as [D|D].
          + left. rewrite D in *. auto.
          + right. exists t. split; auto. split; auto. apply nimp_state. split; auto. rewrite OS; auto. }
      rewrite <- MAIN. destruct (subseteq_ck ds pre (of_state ds st (write_ids T p))).
      * split; auto. intros [(_ & X)|X]; [discriminate|auto].
      * cbn [In]. split; [intros [<-|X]; auto|]. intros [(-> & _)|X]; auto.
  - exists []. split; auto. intros a. split; [intros []|]. intros (t & Tt & H & _).
    enough (sat_ck ds f = true) by congruence. apply (sat_state ds INH); auto. eauto.
Qed.

(** A clause is right about the cells [pre]. *)
Definition clause_for (x : fmla) (pre : list nat) (c : xclause) : Prop :=
  x_cond c = combine (seq 0 (length pre)) pre /\
  (exists s t, ok s /\ ok t /\ steps x s t /\ cells T p s = pre) /\
  forall d, In d (x_choices c) <-> exists s t, ok s /\ ok t /\ steps x s t /\ cells T p s = pre /\
    d = combine (map fst (write_places T p)) (values (write_ids T p) t) /\ cells_after T p s t <> cells T p s.

Lemma clause_spec : forall fuel x, trans_fmla ds x -> count T (enabled_b T x) + length (assignments ds) < fuel ->
  exists cls, clause_loop T fuel p x = Some cls /\
    (forall c, In c cls -> exists pre, clause_for x pre c) /\
    (forall s t, ok s -> ok t -> steps x s t -> exists c, In c cls /\ clause_for x (cells T p s) c).
Proof.
  induction fuel as [|fuel IH]; intros x TX C; [lia|]. cbn [clause_loop]. destruct (sat_ck ds x) eqn:E.
  - destruct (pick_some T HN x (read_ids T p) read_ids_wf E) as (st & -> & b & i & s0 & B & I & S0 & M & V).
    assert (LS : length st = length (read_ids T p)) by (rewrite <- V; unfold values; rewrite map_length; auto).
    assert (H0 : steps x s0 i) by (unfold steps, meaning; rewrite <- (trans_eval ds x TX b i s0 B I S0); auto).
    cbv zeta. set (Q := of_state ds st (read_ids T p)) in *.
    assert (SQ : state_fmla ds Q) by (apply of_state_is_state, read_ids_wf).
    assert (OS : forall t, ok t -> (holds Q t <-> cells T p t = st)).
    { intros t Tt. rewrite <- cells_eq. apply (C57_of_state_exact ds st (read_ids T p) read_ids_wf LS t t Tt Tt). }
    rewrite cells_eq in V.
    assert (NE : exists s, ok s /\ holds Q s) by (exists s0; split; auto; apply OS; auto).
    assert (NC : ~ const_true_on_empty ds x Q) by (intros (_ & _ & H); destruct NE as (s & S & HS); apply (H s S HS)).
    assert (POS : 0 < count T (enabled_b T x)).
    { unfold count. assert (IN : In s0 (filter (enabled_b T x) (assignments ds))).
      { apply filter_In. split; [apply in_assignments; auto|]. apply enabled_iff. eauto. }
      destruct (filter _ _); [destruct IN|cbn; lia]. }
    destruct (choice_spec fuel Q (img1_PFmla ds x Q)) as (cs & E1 & H1).
    { apply img1_is_state; auto. }
    { pose proof (count_le T (fun t => eval (img1_PFmla ds x Q) (join t t t))). lia. }
    destruct (IH (nimp_PFmla x Q)) as (cls & E2 & H2 & H3).
    { apply nimp_is_trans; auto. }
    { enough (count T (enabled_b T (nimp_PFmla x Q)) < count T (enabled_b T x)) by lia. apply count_mono.
      - intros s S H. apply enabled_iff in H. destruct H as (t & Tt & H). apply (nimp_steps T) in H; auto. apply enabled_iff. exists t. tauto.
      - exists s0. split; auto. split; [apply enabled_iff; eauto|]. apply not_true_iff_false. intros H. apply enabled_iff in H. destruct H as (t & Tt & H).
        apply (nimp_steps T) in H; auto. destruct H as (_ & H). apply H, OS; auto. }
    rewrite E1, E2. eexists. split; [reflexivity|].
    assert (SUB : forall t, ok t -> (subseteq_ck ds Q (of_state ds (values (write_ids T p) t) (write_ids T p)) = false <-> cells_after T p s0 t <> cells T p s0)).
    { intros t Tt. rewrite <- same_after, <- not_true_iff_false.
      assert (OW : forall s, ok s -> (holds (of_state ds (values (write_ids T p) t) (write_ids T p)) s <-> values (write_ids T p) s = values (write_ids T p) t)).
      { intros s S. assert (LV : length (values (write_ids T p) t) = length (write_ids T p)) by (unfold values; apply map_length).
        apply (C57_of_state_exact ds (values (write_ids T p) t) (write_ids T p) write_ids_wf LV s s S S). }
      rewrite (sub_state ds INH) by (auto; apply of_state_is_state, write_ids_wf). split; intros X Y; apply X.
      - intros s S HS. apply OW; auto. apply OS in HS; auto. rewrite <- Y. apply write_ids_in. congruence.
      - apply OW; auto. apply Y; auto. apply OS; auto. }
    assert (AFT : forall s t, cells T p s = st -> (cells_after T p s0 t <> cells T p s0 <-> cells_after T p s t <> cells T p s)).
    { intros s t HS. rewrite <- !same_after. rewrite (write_ids_in s s0) by congruence. tauto. }
    assert (CF : clause_for x st (mkXclause (combine (seq 0 (length st)) st) cs)).
    { split; [reflexivity|]. split; [exists s0, i; auto|]. intros d. cbn [x_choices]. rewrite H1. split.
      - intros (t & Tt & H & -> & HS). apply (img1_state ds) in H; auto. destruct H as (s & S & H & HQ). apply OS in HQ; auto.
        exists s, t. do 4 (split; [auto|]). split; auto. apply SUB in HS; auto. apply AFT; auto.
      - intros (s & t & S & Tt & H & HS & -> & HA). exists t. split; auto. split.
        + apply (img1_state ds); auto. exists s. split; auto. split; auto. apply OS; auto.
        + split; auto. apply SUB; auto. apply (AFT s t HS); auto. }
    assert (LIFT : forall pre c, clause_for (nimp_PFmla x Q) pre c -> clause_for x pre c).
    { intros pre c (A1 & (s & t & S & Tt & A2 & A3) & A4). apply (nimp_steps T) in A2; auto. destruct A2 as (A2 & A5).
      assert (ND : pre <> st) by (intros ->; apply A5, OS; auto).
      split; auto. split; [exists s, t; auto|]. intros d. rewrite A4. split; intros (s' & t' & S' & T' & B1 & B2 & B3 & B4); exists s', t'.
      - apply (nimp_steps T) in B1; auto. tauto.
      - do 2 (split; [auto|]). split; [|auto]. apply (nimp_steps T); auto. split; auto. intros X. apply OS in X; auto. congruence. }
    split.
    + intros c [<-|H]; [exists st; auto|]. destruct (H2 c H) as (pre & A). exists pre. apply LIFT; auto.
    + intros s t S Tt H. destruct (list_eq_dec Nat.eq_dec (cells T p s) st) as [D|D].
      * rewrite D. eexists. split; [left; reflexivity|auto].
      * destruct (H3 s t S Tt) as (c & A1 & A2).
        { apply (nimp_steps T); auto. split; auto. intros X. apply OS in X; auto. }
        exists c. split; [cbn; auto|]. apply LIFT; auto.
  - exists []. split; auto. split; [intros c []|]. intros s t S Tt H.
    enough (sat_ck ds x = true) by congruence. apply (sat_trans ds INH); auto. eauto.
Qed.

(** The formula of all actions. *)
Definition some_step (s t : list nat) : Prop :=
  exists a, In a actions /\ act_pc (act_of (kinds T) a) = p_kind p /\ process_step T (action_xfmlae T lw a) j s t.
Definition the_xn : fmla := fold_left (fun x a => if action_pcsymm_index (kinds T) a =? p_kind p
   then or_PFmla x (represented_xns_of_pc T lw a (j, p)) else x) actions (Cst false).
Lemma the_means : means T p the_xn some_step.
Proof.
  assert (G : forall l x R, (forall a, In a l -> In a actions) -> means T p x R ->
    means T p (fold_left (fun x a => if action_pcsymm_index (kinds T) a =? p_kind p then or_PFmla x (represented_xns_of_pc T lw a (j, p)) else x) l x)
      (fun s t => R s t \/ exists a, In a l /\ act_pc (act_of (kinds T) a) = p_kind p /\ process_step T (action_xfmlae T lw a) j s t)).
  { induction l as [|a l IH]; intros x R Hl M; cbn [fold_left].
    - apply (means_ext _ _ _ _ _ M). intros s t _ _. split; auto. intros [H|(a & [] & _)]; auto.
    - destruct (ACTS a (Hl a (or_introl eq_refl))) as (A1 & A2).
      assert (IDX : action_pcsymm_index (kinds T) a = act_pc (act_of (kinds T) a)) by reflexivity.
      destruct (Nat.eqb_spec (action_pcsymm_index (kinds T) a) (p_kind p)) as [E|E].
      + rewrite IDX in E. refine (means_ext _ _ _ _ _ (IH _ _ (fun q Hq => Hl q (or_intror Hq)) (means_or _ _ _ _ _ _ M (net_rep_means T HN lw a A1 A2 j p Hj (eq_sym E)))) _).
        intros s t S Tt. cbn. split.
        * intros [[X|X]|(q & Hq & X)]; [auto|right; exists a; auto|right; exists q; tauto].
        * intros [X|(q & [<-|Hq] & X)]; [auto|left; right; tauto|right; exists q; tauto].
      + rewrite IDX in E. refine (means_ext _ _ _ _ _ (IH _ _ (fun q Hq => Hl q (or_intror Hq)) M) _).
        intros s t S Tt. split.
        * intros [X|(q & Hq & X)]; [auto|]. right. exists q. cbn. tauto.
        * intros [X|(q & [<-|Hq] & X)]; [auto|tauto|]. right. exists q. tauto. }
  refine (means_ext _ _ _ _ _ (G actions (Cst false) _ (fun a H => H) (means_false T HN p Hp)) _).
  intros s t S Tt. unfold some_step. tauto.
Qed.
(** Steps of the formula and of the process agree on what the code assigns. *)
Lemma written_shown : forall i, i < nr kd -> write_ck (acc kd i) = true -> In (rvbl p i) (written T p).
Proof.
  intros i Hi W. apply written_iff; auto. left. exists i. split; [exact Hi|]. split; [|reflexivity]. apply writable_ck. exact W.
Qed.
Lemma formula_step : forall s t, ok s -> ok t -> steps the_xn s t ->
  exists t', ok t' /\ some_step s t' /\ cells_after T p s t' = cells_after T p s t.
Proof.
  intros s t S Tt H. destruct the_means as ((W & TX & WO & MK) & E). cbn [xn proc_of wvbls mask] in *.
  exists (over ds (written T p) t s). assert (OM := over_ok ds (written T p) t s Tt S). split; auto. 
  assert (AG : forall k, In k (written T p) -> nth k t 0 = nth k (over ds (written T p) t s) 0).
  { intros k Hk. unfold wf_ids in W. rewrite Forall_forall in W. rewrite over_in; auto. }
  split.
  - apply E; auto. split.
    + cbn [xn proc_of]. apply (WO s t (over ds (written T p) t s) s); auto.
    + cbn [wvbls proc_of]. apply agree_sym, over_agree.
  - rewrite !after_eq. apply map_ext_in. intros i Hi. destruct (write_ck (acc kd i)) eqn:WC; auto. symmetry. apply AG. apply written_shown; auto. apply puppet_lt; auto.
Qed.
Lemma step_formula : forall s t, ok s -> ok t -> some_step s t -> steps the_xn s t.
Proof. intros s t S Tt H. destruct the_means as (_ & E). apply E in H; auto. apply H. Qed.
Lemma can_do_iff : forall x y, can_do T lw actions j p x y <->
  exists s t, ok s /\ ok t /\ steps the_xn s t /\ cells T p s = x /\ cells_after T p s t = y.
Proof.
  intros x y. unfold can_do. split.
  - intros (a & s & t & H1 & H2 & H3 & H4 & H5 & H6 & H7). exists s, t. do 2 (split; [auto|]). split; [|auto]. apply step_formula; auto. exists a. auto.
  - intros (s & t & H1 & H2 & H3 & H4 & H5). destruct (formula_step s t H1 H2 H3) as (t' & T' & (a & A1 & A2 & A3) & AF).
    exists a, s, t'. rewrite AF. auto 8.
Qed.

Lemma exec_choice_iff : forall cs x y, (exists r, exec_choice r cs x = y) <-> (cs = [] /\ y = x) \/ exists c, In c cs /\ y = exec_assign c x.
Proof.
  intros cs x y. destruct cs as [|c [|c' cs]].
  - cbn. split; [intros (_ & <-); auto|]. intros [(_ & ->)|(c & [] & _)]. exists 0. auto.
  - cbn. split; [intros (_ & <-); right; eauto|]. intros [(X & _)|(c0 & [<-|[]] & ->)]; [discriminate|]. exists 0. auto.
  - set (l := c :: c' :: cs). assert (EQ : forall r, exec_choice r l x = exec_assign (nth (r mod length l) l []) x) by reflexivity. split.
    + intros (r & <-). right. rewrite EQ. eexists. split; [|reflexivity]. apply nth_In. apply Nat.mod_upper_bound. discriminate.
    + intros [(X & _)|(d & Hd & ->)]; [discriminate|]. apply In_nth with (d := []) in Hd. destruct Hd as (n & Hn & <-). exists n. rewrite EQ.
      rewrite Nat.mod_small by auto. reflexivity.
Qed.

(** The clauses decide the result, once the random variables are drawn. *)
Lemma clauses_exec : forall fuel cls, clause_loop T fuel p the_xn = Some cls -> 2 * length (assignments ds) < fuel ->
  forall x0 x, length x = length (puppets kd) -> forall y,
  (exists r, match find (fun c => exec_cond (x_cond c) x) cls with Some c => exec_choice r (x_choices c) x | None => x0 end = y) <->
  (can_do T lw actions j p x y /\ y <> x) \/
  (can_do T lw actions j p x y /\ y = x /\ forall z, can_do T lw actions j p x z -> z = x) \/
  (y = x0 /\ forall z, ~ can_do T lw actions j p x z).
Proof.
  intros fuel cls EC F x0 x L y.
  assert (TX : trans_fmla ds the_xn) by (destruct the_means as ((_ & TX & _) & _); exact TX).
  destruct (clause_spec fuel the_xn TX) as (cls' & EC' & H1 & H2).
  { pose proof (count_le T (enabled_b T the_xn)). lia. }
  rewrite EC in EC'. injection EC' as <-.
  assert (LC : forall s, length (cells T p s) = length (puppets kd)).
  { intros s. unfold cells. rewrite map_length. change (its_kind T p) with kd. change (shown kd) with (puppets kd). auto. }
  destruct (find (fun c => exec_cond (x_cond c) x) cls) as [c|] eqn:FD.
  - apply List.find_some in FD. destruct FD as (I1 & I2). destruct (H1 c I1) as (pre & A1 & (s0 & t0 & S0 & T0 & A2 & A3) & A4).
    rewrite A1 in I2. apply exec_cond_spec in I2; [|rewrite <- A3, LC; auto]. subst pre. rewrite exec_choice_iff.
    assert (IN : forall z, (exists d, In d (x_choices c) /\ z = exec_assign d x) <-> can_do T lw actions j p x z /\ z <> x).
    { intros z. rewrite can_do_iff. split.
      - intros (d & Hd & ->). apply A4 in Hd. destruct Hd as (s & t & S & Tt & B1 & B2 & -> & B3).
        assert (EA : exec_assign (combine (map fst (write_places T p)) (values (write_ids T p) t)) x = cells_after T p s t) by (rewrite <- B2; apply assign_eq).
        rewrite EA. split; [exists s, t; auto|]. rewrite B2 in B3. exact B3.
      - intros ((s & t & S & Tt & B1 & B2 & B3) & B4). exists (combine (map fst (write_places T p)) (values (write_ids T p) t)). split.
        + apply A4. exists s, t. do 3 (split; [auto|]). split; [congruence|]. split; auto. congruence.
        + rewrite <- B2, assign_eq. auto. }
    assert (CD0 : can_do T lw actions j p x (cells_after T p s0 t0)) by (apply can_do_iff; exists s0, t0; do 3 (split; [auto|]); split; [congruence|auto]).
    rewrite IN. split.
    + intros [(N1 & ->)|X]; [|auto]. right. left.
      assert (NO : forall z, can_do T lw actions j p x z -> z = x).
      { intros z Hz. destruct (list_eq_dec Nat.eq_dec z x) as [D|D]; auto. exfalso. destruct (proj2 (IN z) (conj Hz D)) as (d & Hd & _). rewrite N1 in Hd. destruct Hd. }
      split; [|auto]. rewrite <- (NO _ CD0) at 2. exact CD0.
    + intros [X|[(X1 & X2 & X3)|(X1 & X2)]]; [auto| |exfalso; eapply X2; eauto]. left. split; auto.
      destruct (x_choices c) as [|d l] eqn:EX; auto. exfalso. destruct (proj1 (IN (exec_assign d x))) as (Y1 & Y2).
      { exists d. cbn. auto. }
      apply Y2, X3, Y1.
  - assert (NO : forall z, ~ can_do T lw actions j p x z).
    { intros z Hz. apply can_do_iff in Hz. destruct Hz as (s & t & S & Tt & B1 & B2 & B3). destruct (H2 s t S Tt B1) as (c & I & A1 & _).
      pose proof (find_none _ _ FD c I) as X. cbn beta in X. rewrite A1, B2 in X. rewrite (proj2 (exec_cond_spec x x eq_refl) eq_refl) in X. discriminate. }
    split.
    + intros (_ & <-). right. right. auto.
    + intros [(X & _)|[(X & _)|(-> & _)]]; [exfalso; eapply NO; eauto|exfalso; eapply NO; eauto|]. exists 0. auto.
Qed.

(** Drawing the random variables. *)
Lemma random_iff : forall i, existsb (Nat.eqb (rvbl p i)) (random_vbls T) = true <-> fickle T (rvbl p i).
Proof.
  intros i. rewrite <- fickle_iff by auto. rewrite existsb_exists. split.
  - intros (v & H & E). apply Nat.eqb_eq in E. subst. auto.
  - intros H. eexists. split; [exact H|]. apply Nat.eqb_refl.
Qed.
End Process.
End Act.

Lemma redraw_ext : forall rnd rs rs' n x, (forall m, n <= m < n + length rnd -> rs m = rs' m) -> redraw rs n rnd x = redraw rs' n rnd x.
Proof.
  induction rnd as [|(i, d) rnd IH]; intros rs rs' n x H; cbn [redraw length] in *; auto. rewrite (H n) by lia. apply IH. intros m M. apply H. lia.
Qed.
(** [f] tells which accesses are drawn, [dom] their domains. *)
Lemma redraw_iff : forall (f : nat -> bool) (dom : nat -> nat) ps pre n x x', length x = length ps -> (forall i, In i ps -> 1 <= dom i) ->
  ((exists rs, redraw rs n (map (fun ji => (fst ji, dom (snd ji))) (filter (fun ji => f (snd ji)) (combine (seq (length pre) (length ps)) ps))) (pre ++ x) = pre ++ x') <->
   length x' = length ps /\ forall m, m < length ps -> if f (nth m ps 0) then nth m x' 0 < dom (nth m ps 0) else nth m x' 0 = nth m x 0).
Proof.
  intros f dom. induction ps as [|i ps IH]; intros pre n x x' L D; cbn [length seq combine filter map snd] in *.
  - destruct x; [|discriminate]. cbn [redraw]. rewrite app_nil_r. split.
    + intros (_ & E). assert (x' = []) as -> by (apply (app_inv_head pre); rewrite app_nil_r; auto). split; [auto|]. intros m M. lia.
    + intros (E & _). destruct x'; [|discriminate]. exists (fun _ => 0). rewrite app_nil_r. auto.
  - destruct x as [|x0 x]; [discriminate|]. cbn [length] in L.
    assert (UP : forall v, upd (pre ++ x0 :: x) (length pre) v = (pre ++ [v]) ++ x).
    { intros v. clear. rewrite <- app_assoc. cbn. induction pre as [|y pre IH]; cbn; auto. rewrite IH. auto. }
    assert (L1 : forall v, length (pre ++ [v]) = S (length pre)) by (intros v; rewrite app_length; cbn; lia).
    assert (DI : 1 <= dom i) by (apply D; cbn; auto).
    assert (D' : forall i, In i ps -> 1 <= dom i) by (intros; apply D; cbn; auto).
    destruct (f i) eqn:FI.
    + cbn [map fst snd redraw]. split.
      * intros (rs & E). rewrite UP in E. rewrite <- (L1 (rs n mod dom i)) in E.
        assert (exists x'', x' = rs n mod dom i :: x'' /\ redraw rs (S n) (map (fun ji => (fst ji, dom (snd ji)))
          (filter (fun ji => f (snd ji)) (combine (seq (length (pre ++ [rs n mod dom i])) (length ps)) ps))) ((pre ++ [rs n mod dom i]) ++ x) = (pre ++ [rs n mod dom i]) ++ x'') as (x'' & -> & E').
        { assert (K : forall rnd m y z, (forall c, In c rnd -> length y <= fst c) -> exists w, redraw rs m rnd (y ++ z) = y ++ w).
          { clear. induction rnd as [|(c, d) rnd IH]; intros m y z H; cbn [redraw]; [eauto|].
            pose proof (H (c, d) (or_introl eq_refl)) as Hc. cbn [fst] in Hc.
            assert (U : upd (y ++ z) c (rs m mod d) = y ++ upd z (c - length y) (rs m mod d)).
            { clear -Hc. revert c Hc. induction y as [|a y IH]; intros c Hc; cbn in *; [rewrite Nat.sub_0_r; auto|]. destruct c as [|c]; [lia|]. cbn. f_equal. apply IH. lia. }
            rewrite U. apply IH. intros c' Hc'. apply H. cbn. auto. }
          destruct (K (map (fun ji => (fst ji, dom (snd ji))) (filter (fun ji => f (snd ji)) (combine (seq (length (pre ++ [rs n mod dom i])) (length ps)) ps))) (S n) (pre ++ [rs n mod dom i]) x) as (w & W).
          { intros c Hc. apply in_map_iff in Hc. destruct Hc as ((c1, c2) & <- & Hc). apply filter_In in Hc. destruct Hc as (Hc & _). apply in_combine_l in Hc. apply in_seq in Hc. cbn [fst]. lia. }
          exists w. split; [|exact W]. rewrite E in W. rewrite <- app_assoc in W. apply app_inv_head in W. auto. }
        destruct (proj1 (IH (pre ++ [rs n mod dom i]) (S n) x x'' ltac:(lia) D')) as (A1 & A2); [eexists; exact E'|].
        split; [cbn; lia|]. intros m M. destruct m as [|m]; cbn [nth].
        -- rewrite FI. apply Nat.mod_upper_bound. lia.
        -- apply A2. lia.
      * intros (A1 & A2). destruct x' as [|v x']; [discriminate|]. pose proof (A2 0 ltac:(lia)) as V. cbn [nth] in V. rewrite FI in V.
        destruct (proj2 (IH (pre ++ [v]) (S n) x x' ltac:(lia) D')) as (rs & E).
        { split; [cbn in A1; lia|]. intros m M. specialize (A2 (S m) ltac:(lia)). exact A2. }
        exists (fun m => if m =? n then v else rs m). rewrite Nat.eqb_refl, Nat.mod_small by auto. rewrite UP, <- (L1 v).
        replace (pre ++ v :: x') with ((pre ++ [v]) ++ x') by (rewrite <- app_assoc; auto).
        rewrite <- E. apply redraw_ext. intros m M. destruct (Nat.eqb_spec m n); [lia|]. auto.
    + split.
      * intros (rs & E). rewrite <- (L1 x0) in E. replace (pre ++ x0 :: x) with ((pre ++ [x0]) ++ x) in E by (rewrite <- app_assoc; auto).
        assert (exists x'', x' = x0 :: x'' ) as (x'' & ->).
        { assert (K : forall rnd m y z, (forall c, In c rnd -> length y <= fst c) -> exists w, redraw rs m rnd (y ++ z) = y ++ w).
          { clear. induction rnd as [|(c, d) rnd IH]; intros m y z H; cbn [redraw]; [eauto|].
            pose proof (H (c, d) (or_introl eq_refl)) as Hc. cbn [fst] in Hc.
            assert (U : upd (y ++ z) c (rs m mod d) = y ++ upd z (c - length y) (rs m mod d)).
            { clear -Hc. revert c Hc. induction y as [|a y IH]; intros c Hc; cbn in *; [rewrite Nat.sub_0_r; auto|]. destruct c as [|c]; [lia|]. cbn. f_equal. apply IH. lia. }
            rewrite U. apply IH. intros c' Hc'. apply H. cbn. auto. }
          destruct (K (map (fun ji => (fst ji, dom (snd ji))) (filter (fun ji => f (snd ji)) (combine (seq (length (pre ++ [x0])) (length ps)) ps))) n (pre ++ [x0]) x) as (w & W).
          { intros c Hc. apply in_map_iff in Hc. destruct Hc as ((c1, c2) & <- & Hc). apply filter_In in Hc. destruct Hc as (Hc & _). apply in_combine_l in Hc. apply in_seq in Hc. cbn [fst]. lia. }
          exists w. rewrite E in W. rewrite <- app_assoc in W. apply app_inv_head in W. auto. }
        replace (pre ++ x0 :: x'') with ((pre ++ [x0]) ++ x'') in E by (rewrite <- app_assoc; auto).
        destruct (proj1 (IH (pre ++ [x0]) n x x'' ltac:(lia) D')) as (A1 & A2); [eexists; exact E|].
        split; [cbn; lia|]. intros m M. destruct m as [|m]; cbn [nth]; [rewrite FI; auto|]. apply A2. lia.
      * intros (A1 & A2). destruct x' as [|v x']; [discriminate|]. pose proof (A2 0 ltac:(lia)) as V. cbn [nth] in V. rewrite FI in V. subst v.
        destruct (proj2 (IH (pre ++ [x0]) n x x' ltac:(lia) D')) as (rs & E).
        { split; [cbn in A1; lia|]. intros m M. specialize (A2 (S m) ltac:(lia)). exact A2. }
        exists rs. rewrite <- (L1 x0). replace (pre ++ x0 :: x) with ((pre ++ [x0]) ++ x) by (rewrite <- app_assoc; auto).
        replace (pre ++ x0 :: x') with ((pre ++ [x0]) ++ x') by (rewrite <- app_assoc; auto). exact E.
Qed.
