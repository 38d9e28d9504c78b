(** Numbering of actions: proofs. *)
From Coq Require Import List Arith Bool Lia.
From Verif Require Import FinLib Radix ActModel ActSpec.
Import ListNotations.

(** ** Domains *)
Lemma guard_values_eq : forall a, rdomsz a = guard_values a.
Proof. intros [[] [] d]; reflexivity. Qed.

Lemma writable_ck : forall a, write_ck a = true <-> writable a.
Proof.
  intros [[] r d]; unfold writable, write_ck; cbn; split; intros H; auto; try discriminate;
    repeat (destruct H as [H|H]); discriminate.
Qed.

Lemma assign_values_eq : forall a, write_ck a = true -> wdomsz a = assign_values a.
Proof. intros [[] [] d]; cbn; intros H; try discriminate; reflexivity. Qed.

Definition wck (pc : pcsymm) (i : nat) : bool := write_ck (acc pc i).

Lemma firstn_map_nth : forall A (l : list A) d i, i <= length l ->
  firstn i l = map (fun j => nth j l d) (seq 0 i).
Proof.
  induction l as [|x l IH]; intros d i H; simpl in H.
  - assert (i = 0) by lia. subst. reflexivity.
  - destruct i as [|i]; auto. cbn [firstn seq map nth]. f_equal.
    rewrite <- seq_shift, map_map. apply IH. lia.
Qed.

Lemma filter_map_length : forall A B (f : B -> bool) (g : A -> B) l,
  length (filter f (map g l)) = length (filter (fun x => f (g x)) l).
Proof. induction l; simpl; auto. destruct (f (g a)); simpl; auto. Qed.

Lemma place_eq : forall pc i, i <= nr pc -> place pc i = length (filter (wck pc) (seq 0 i)).
Proof.
  intros pc i H. unfold place. rewrite (firstn_map_nth _ _ acc0) by exact H.
  rewrite filter_map_length. reflexivity.
Qed.

Lemma place_all : forall pc, place pc (nr pc) = nw pc.
Proof. intros. rewrite place_eq by lia. reflexivity. Qed.

Lemma nth_place : forall pc i, i < nr pc -> wck pc i = true ->
  place pc i < nw pc /\ nth (place pc i) (wmap pc) 0 = i.
Proof.
  intros pc i Hi Hw. rewrite place_eq by lia. unfold nw, wmap.
  replace (nr pc) with (i + S (nr pc - i - 1)) by lia.
  rewrite seq_app. cbn [seq]. rewrite filter_app. cbn [filter Nat.add]. fold (wck pc i). rewrite Hw.
  change (fun i0 => write_ck (acc pc i0)) with (wck pc).
  rewrite app_length. cbn [length]. split; [lia|].
  rewrite app_nth2, Nat.sub_diag by lia. reflexivity.
Qed.

Lemma wmap_NoDup : forall pc, NoDup (wmap pc).
Proof. intros. apply NoDup_filter, seq_NoDup. Qed.

Lemma wmap_nth : forall pc w, w < nw pc ->
  nth w (wmap pc) 0 < nr pc /\ wck pc (nth w (wmap pc) 0) = true /\ place pc (nth w (wmap pc) 0) = w.
Proof.
  intros pc w H. assert (Hin : In (nth w (wmap pc) 0) (wmap pc)) by (apply nth_In; exact H).
  pose proof Hin as Hin2. unfold wmap in Hin2 at 2. apply filter_In in Hin2.
  destruct Hin2 as [H1 H2]. apply in_seq in H1.
  assert (H3 : nth w (wmap pc) 0 < nr pc) by lia. split; auto. split; auto.
  destruct (nth_place pc _ H3 H2) as [H4 H5].
  pose proof (wmap_NoDup pc) as HN. rewrite NoDup_nth with (d := 0) in HN. apply HN; auto.
Qed.

Lemma place_mono : forall pc i j, i <= j -> j <= nr pc -> place pc i <= place pc j.
Proof.
  intros pc i j H H2. rewrite !place_eq by lia. replace j with (i + (j - i)) by lia.
  rewrite seq_app, filter_app, app_length. lia.
Qed.

Lemma place_lt : forall pc i j, i < j -> j <= nr pc -> wck pc i = true -> place pc i < place pc j.
Proof.
  intros pc i j H H2 Hw. assert (place pc (S i) <= place pc j) by (apply place_mono; lia).
  assert (place pc (S i) = S (place pc i)).
  { rewrite !place_eq by lia. rewrite seq_S, filter_app, app_length. cbn. rewrite Hw. cbn. lia. }
  lia.
Qed.

Lemma place_lt_inv : forall pc i j, i < nr pc -> j < nr pc -> wck pc i = true -> wck pc j = true ->
  place pc i < place pc j -> i < j.
Proof.
  intros pc i j Hi Hj Wi Wj H. destruct (Nat.lt_trichotomy i j) as [L|[L|L]]; auto; subst; try lia.
  pose proof (place_lt pc j i L (Nat.lt_le_incl _ _ Hi) Wj). lia.
Qed.

(** ** Value lists *)
Definition valid (pc : pcsymm) (v : list nat) : Prop := Forall2 lt v (doms pc).

Lemma Forall2_lt_nth : forall u d, Forall2 lt u d <->
  length u = length d /\ forall i, i < length d -> nth i u 0 < nth i d 0.
Proof.
  induction u as [|x u IH]; intros [|y d]; split; intros H.
  - split; auto. intros i Hi. cbn in Hi. lia.
  - constructor.
  - inversion H.
  - destruct H as [H _]. discriminate.
  - inversion H.
  - destruct H as [H _]. discriminate.
  - inversion H; subst. apply IH in H5. destruct H5 as [E1 E2]. split; [cbn; congruence|].
    intros [|i] Hi; cbn; auto. apply E2. cbn in Hi. lia.
  - destruct H as [E1 E2]. constructor.
    + apply (E2 0). cbn. lia.
    + apply IH. split; [cbn in E1; lia|]. intros i Hi. apply (E2 (S i)). cbn. lia.
Qed.

Lemma doms_length : forall pc, length (doms pc) = nr pc + nw pc.
Proof.
  intros. unfold doms, rdoms, wdoms. rewrite app_length, !map_length. reflexivity.
Qed.

Lemma doms_guard : forall pc i, i < nr pc -> nth i (doms pc) 0 = guard_values (acc pc i).
Proof.
  intros pc i H. unfold doms, rdoms. rewrite app_nth1 by (rewrite map_length; exact H).
  rewrite (nth_indep _ 0 (rdomsz acc0)) by (rewrite map_length; exact H).
  rewrite map_nth. apply guard_values_eq.
Qed.

Lemma doms_assign : forall pc i, i < nr pc -> wck pc i = true ->
  nth (nr pc + place pc i) (doms pc) 0 = assign_values (acc pc i).
Proof.
  intros pc i H Hw. destruct (nth_place pc i H Hw) as [H1 H2].
  unfold doms, rdoms, wdoms. rewrite app_nth2 by (rewrite map_length; unfold nr; lia).
  rewrite map_length. replace (nr pc + place pc i - length (accs pc)) with (place pc i) by (unfold nr; lia).
  rewrite (nth_indep _ 0 (wdomsz (acc pc 0))) by (rewrite map_length; exact H1).
  rewrite (map_nth (fun i => wdomsz (acc pc i))). rewrite H2. apply assign_values_eq. exact Hw.
Qed.

Lemma valid_spec : forall pc v, valid pc v <-> action_values pc v.
Proof.
  intros pc v. unfold valid, action_values. rewrite Forall2_lt_nth, doms_length.
  fold (nr pc). rewrite place_all. split; intros (H1 & H2).
  - split; auto. split.
    + intros i Hi. unfold tested. fold (acc pc i). rewrite <- doms_guard by exact Hi. apply H2. lia.
    + intros i Hi Hw. apply writable_ck in Hw. destruct (nth_place pc i Hi Hw) as [P1 P2].
      unfold assigned. fold (nr pc). fold (acc pc i). rewrite <- doms_assign by auto. apply H2. lia.
  - destruct H2 as [H2 H3]. split; auto. intros i Hi.
    destruct (Nat.lt_ge_cases i (nr pc)) as [L|L].
    + rewrite doms_guard by exact L. apply H2. exact L.
    + destruct (wmap_nth pc (i - nr pc)) as (P1 & P2 & P3); [lia|].
      replace i with (nr pc + place pc (nth (i - nr pc) (wmap pc) 0)) by (rewrite P3; lia).
      rewrite doms_assign by auto. apply H3; auto. apply writable_ck. exact P2.
Qed.

(** ** Counting *)
Lemma fold_left_mul : forall l n, fold_left Nat.mul l n = n * prod l.
Proof. induction l; intros n; cbn; [lia|]. rewrite IHl. lia. Qed.

Lemma prod_app : forall l1 l2, prod (l1 ++ l2) = prod l1 * prod l2.
Proof. induction l1; intros l2; cbn; [lia|]. rewrite IHl1. lia. Qed.

Lemma pre_domsz_prod : forall pc, pre_domsz pc = prod (rdoms pc).
Proof. intros. unfold pre_domsz. rewrite fold_left_mul. lia. Qed.
Lemma img_domsz_prod : forall pc, img_domsz pc = prod (wdoms pc).
Proof. intros. unfold img_domsz. rewrite fold_left_mul. lia. Qed.
Lemma n_possible_prod : forall pc, n_possible_acts pc = prod (doms pc).
Proof.
  intros. unfold n_possible_acts, doms. rewrite pre_domsz_prod, img_domsz_prod, prod_app. reflexivity.
Qed.

Lemma product_prod : forall l, product l = prod l.
Proof. induction l as [|x l IH]; [reflexivity|]. cbn [prod]. rewrite <- IH. reflexivity. Qed.

Lemma wdoms_filter : forall pc, wdoms pc = map wdomsz (filter write_ck (accs pc)).
Proof.
  intros pc. unfold wdoms, wmap.
  assert (E : accs pc = map (acc pc) (seq 0 (nr pc))).
  { rewrite <- (firstn_all (accs pc)) at 1. rewrite (firstn_map_nth _ _ acc0) by lia. reflexivity. }
  rewrite E. generalize (seq 0 (nr pc)) as l. induction l; cbn; auto.
  destruct (write_ck (acc pc a)); cbn; rewrite IHl; auto.
Qed.

Lemma actions_of_eq : forall pc, n_possible_acts pc = actions_of pc.
Proof.
  intros. unfold n_possible_acts, actions_of. rewrite (product_prod (map guard_values _)), (product_prod (map assign_values _)).
  rewrite pre_domsz_prod, img_domsz_prod.
  replace (rdoms pc) with (map guard_values (accs pc)).
  2:{ unfold rdoms. apply map_ext. intros. symmetry. apply guard_values_eq. }
  f_equal.
  - f_equal. rewrite wdoms_filter. apply map_ext_in. intros a H. apply filter_In in H.
    apply assign_values_eq. apply H.
Qed.

Lemma total_acts_gen : forall net n,
  fold_left (fun n pc => n + n_possible_acts pc) net n = n + actions_in net.
Proof.
  induction net as [|pc net IH]; intros n; cbn; [lia|]. rewrite IH. rewrite actions_of_eq.
  unfold actions_in. lia.
Qed.
Lemma total_acts_eq : forall net, total_acts net = actions_in net.
Proof. intros. unfold total_acts. rewrite total_acts_gen. lia. Qed.

(** ** Offsets *)
Definition pre_sum (net : list pcsymm) : nat := fold_right Nat.add 0 (map pre_domsz net).

Lemma commit_from_nth : forall net n p i, i < length net ->
  nth i (commit_from n p net) com0 =
  {| c_pc := nth i net pc0;
     act_idx_offset := n + actions_in (firstn i net);
     pre_dom_offset := p + pre_sum (firstn i net) |}.
Proof.
  induction net as [|pc net IH]; intros n p i H; cbn in H; [lia|].
  destruct i as [|i]; cbn [nth commit_from firstn].
  - unfold actions_in, pre_sum. cbn. rewrite !Nat.add_0_r. reflexivity.
  - rewrite IH by lia. rewrite actions_of_eq. unfold actions_in, pre_sum. cbn [map fold_right].
    rewrite !Nat.add_assoc. reflexivity.
Qed.

Lemma com_nth : forall net i, i < length net ->
  c_pc (com net i) = nth i net pc0 /\
  act_idx_offset (com net i) = actions_in (firstn i net) /\
  pre_dom_offset (com net i) = pre_sum (firstn i net).
Proof.
  intros net i H. unfold com, commit. rewrite commit_from_nth by exact H. cbn. auto.
Qed.

Lemma pcsymm_index_from_spec : forall net n p i a, net <> [] ->
  n <= a < n + actions_in net ->
  let k := pcsymm_index_from i (commit_from n p net) a - i in
  i <= pcsymm_index_from i (commit_from n p net) a /\ k < length net /\
  n + actions_in (firstn k net) <= a < n + actions_in (firstn k net) + actions_of (nth k net pc0).
Proof.
  induction net as [|pc net IH]; intros n p i a Hne H; [congruence|].
  destruct net as [|pc' net].
  - cbn. rewrite Nat.sub_diag. cbn. unfold actions_in in *. cbn in *. lia.
  - remember (pc' :: net) as net'. cbn [commit_from pcsymm_index_from].
    assert (E : exists c' cs', commit_from (n + n_possible_acts pc) (p + pre_domsz pc) net' = c' :: cs' /\
                act_idx_offset c' = n + n_possible_acts pc).
    { subst net'. cbn [commit_from]. eauto. }
    destruct E as (c' & cs' & E & Eo). rewrite E. rewrite Eo.
    destruct (Nat.ltb_spec a (n + n_possible_acts pc)) as [L|L].
    + cbv zeta. rewrite Nat.sub_diag. cbn [firstn nth length]. rewrite actions_of_eq in L.
      unfold actions_in. cbn. lia.
    + rewrite <- E. cbv zeta.
      specialize (IH (n + n_possible_acts pc) (p + pre_domsz pc) (S i) a).
      assert (Hne' : net' <> []) by (subst; discriminate).
      assert (HH : n + n_possible_acts pc <= a < n + n_possible_acts pc + actions_in net').
      { split; auto. rewrite actions_of_eq. unfold actions_in in *. cbn in H. lia. }
      specialize (IH Hne' HH). cbv zeta in IH. destruct IH as (I1 & I2 & I3).
      set (r := pcsymm_index_from (S i) _ a) in *.
      replace (r - i) with (S (r - S i)) by lia. cbn [firstn nth length].
      split; [lia|]. split; [lia|]. rewrite actions_of_eq in I3.
      unfold actions_in in *. cbn [map fold_right]. lia.
Qed.

Lemma pcsymm_index_spec : forall net a, a < actions_in net ->
  let k := action_pcsymm_index net a in
  k < length net /\
  actions_in (firstn k net) <= a < actions_in (firstn k net) + actions_of (nth k net pc0).
Proof.
  intros net a H k.
  assert (Hne : net <> []) by (intros ->; cbn in H; lia).
  destruct (pcsymm_index_from_spec net 0 0 0 a Hne) as (_ & H2 & H3); [lia|].
  unfold k, action_pcsymm_index, commit. rewrite Nat.sub_0_r in *. auto.
Qed.

Lemma actions_in_app : forall l1 l2, actions_in (l1 ++ l2) = actions_in l1 + actions_in l2.
Proof. induction l1; intros; cbn; auto. unfold actions_in in *. cbn. rewrite IHl1. lia. Qed.

Lemma actions_in_firstn_S : forall net k, k < length net ->
  actions_in (firstn (S k) net) = actions_in (firstn k net) + actions_of (nth k net pc0).
Proof.
  induction net as [|pc net IH]; intros k H; cbn in H; [lia|].
  destruct k as [|k].
  - cbn. unfold actions_in. cbn. lia.
  - cbn [firstn nth]. specialize (IH k). unfold actions_in in *. cbn [map fold_right firstn] in *.
    rewrite IH by lia. lia.
Qed.

Lemma actions_in_firstn_mono : forall net i j, i <= j ->
  actions_in (firstn i net) <= actions_in (firstn j net).
Proof.
  intros net i j H. replace i with (Nat.min i j) by lia. rewrite <- firstn_firstn.
  rewrite <- (firstn_skipn i (firstn j net)) at 2. rewrite actions_in_app. lia.
Qed.

Lemma actions_in_firstn_le : forall net i, actions_in (firstn i net) <= actions_in net.
Proof.
  intros net i. rewrite <- (firstn_skipn i net) at 2. rewrite actions_in_app. lia.
Qed.

Lemma pcsymm_index_unique : forall net a k, k < length net ->
  actions_in (firstn k net) <= a < actions_in (firstn k net) + actions_of (nth k net pc0) ->
  action_pcsymm_index net a = k.
Proof.
  intros net a k Hk H.
  assert (Ha : a < actions_in net).
  { rewrite <- actions_in_firstn_S in H by exact Hk.
    pose proof (actions_in_firstn_le net (S k)). lia. }
  destruct (pcsymm_index_spec net a Ha) as [H1 H2]. cbv zeta in *.
  set (j := action_pcsymm_index net a) in *.
  rewrite <- actions_in_firstn_S in H, H2 by auto.
  destruct (Nat.lt_trichotomy j k) as [L|[L|L]]; auto.
  - pose proof (actions_in_firstn_mono net (S j) k L). lia.
  - pose proof (actions_in_firstn_mono net (S k) j L). lia.
Qed.

(** ** Decoding and encoding *)
Theorem act_of_spec : forall net i, i < actions_in net ->
  act_pc (act_of net i) < length net /\
  valid (nth (act_pc (act_of net i)) net pc0) (vals (act_of net i)) /\
  id_of net (act_of net i) = i.
Proof.
  intros net i H. destruct (pcsymm_index_spec net i H) as [H1 H2]. cbv zeta in *.
  unfold act_of, id_of. cbn [act_pc vals]. destruct (com_nth net _ H1) as (C1 & C2 & C3).
  rewrite C1, C2. split; auto.
  destruct (state_of_index_spec (doms (nth (action_pcsymm_index net i) net pc0))
              (i - actions_in (firstn (action_pcsymm_index net i) net))) as [V1 V2].
  { rewrite <- n_possible_prod, actions_of_eq. lia. }
  split; auto. rewrite V2. lia.
Qed.

Theorem id_of_spec : forall net a, act_pc a < length net -> valid (nth (act_pc a) net pc0) (vals a) ->
  id_of net a < actions_in net /\ act_of net (id_of net a) = a /\
  actions_in (firstn (act_pc a) net) <= id_of net a < actions_in (firstn (act_pc a) net) + actions_of (nth (act_pc a) net pc0).
Proof.
  intros net [k v] Hk Hv. cbn in Hk, Hv. destruct (com_nth net k Hk) as (C1 & C2 & C3).
  unfold id_of. cbn [act_pc vals]. rewrite C1, C2.
  pose proof (index_lt _ _ Hv) as Hi. rewrite <- n_possible_prod, actions_of_eq in Hi.
  set (x := actions_in (firstn k net) + index_of_state v (doms (nth k net pc0))).
  assert (Hr : actions_in (firstn k net) <= x < actions_in (firstn k net) + actions_of (nth k net pc0))
    by (unfold x; lia).
  assert (E : action_pcsymm_index net x = k) by (apply pcsymm_index_unique; auto).
  split; [|split; auto].
  - rewrite <- actions_in_firstn_S in Hr by exact Hk.
    pose proof (actions_in_firstn_le net (S k)). lia.
  - unfold act_of. rewrite E, C1, C2. f_equal. unfold x.
    replace (actions_in (firstn k net) + index_of_state v (doms (nth k net pc0)) - actions_in (firstn k net))
      with (index_of_state v (doms (nth k net pc0))) by lia.
    apply state_of_index_of_state. exact Hv.
Qed.

(** ** Guard and assignment numbers *)
Lemma index_app : forall g d1 a d2, length g = length d1 ->
  index_of_state (g ++ a) (d1 ++ d2) = index_of_state g d1 * prod d2 + index_of_state a d2.
Proof.
  induction g as [|x g IH]; intros [|y d1] a d2 H; cbn in H; try discriminate; cbn; auto.
  rewrite IH by lia. rewrite prod_app. lia.
Qed.

Lemma Forall2_lt_app_split : forall d1 d2 v, Forall2 lt v (d1 ++ d2) ->
  Forall2 lt (firstn (length d1) v) d1 /\ Forall2 lt (skipn (length d1) v) d2.
Proof.
  induction d1 as [|y d1 IH]; intros d2 v H; cbn in *.
  - split; [constructor|exact H].
  - inversion H as [|x y' v' d' Hx Hr]; subst. destruct (IH _ _ Hr). cbn. split; auto.
Qed.

Lemma pre_img_index_spec : forall net i, i < actions_in net ->
  let a := act_of net i in
  let pc := nth (act_pc a) net pc0 in
  action_pre_index net i = pre_sum (firstn (act_pc a) net) + index_of_state (firstn (nr pc) (vals a)) (rdoms pc) /\
  action_img_index net i = index_of_state (skipn (nr pc) (vals a)) (wdoms pc) /\
  index_of_state (firstn (nr pc) (vals a)) (rdoms pc) < pre_domsz pc.
Proof.
  intros net i H a pc. destruct (act_of_spec net i H) as (H1 & H2 & H3).
  fold a in H1, H2, H3. fold pc in H2.
  destruct (com_nth net (act_pc a) H1) as (C1 & C2 & C3).
  unfold action_pre_index, action_img_index.
  change (action_pcsymm_index net i) with (act_pc a). rewrite C1, C2, C3. fold pc.
  unfold id_of in H3. rewrite C1, C2 in H3. fold pc in H3.
  replace (i - actions_in (firstn (act_pc a) net)) with (index_of_state (vals a) (doms pc)) by lia.
  unfold valid, doms in H2. apply Forall2_lt_app_split in H2. unfold rdoms in H2 at 1 3.
  rewrite map_length in H2. fold (nr pc) in H2. destruct H2 as [V1 V2].
  rewrite <- (firstn_skipn (nr pc) (vals a)) at 1 3.
  unfold doms. rewrite index_app.
  2:{ apply Forall2_lt_nth in V1. apply V1. }
  rewrite img_domsz_prod. pose proof (index_lt _ _ V1). pose proof (index_lt _ _ V2).
  rewrite pre_domsz_prod. split; [|split; auto].
  - rewrite Nat.div_add_l by lia. rewrite Nat.div_small by lia. lia.
  - rewrite Nat.add_comm, Nat.mod_add by lia. apply Nat.mod_small. lia.
Qed.
