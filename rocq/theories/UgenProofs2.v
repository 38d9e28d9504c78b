(** Generated UDP code: the functions about channels. *)
From Coq Require Import NArith.
From Verif Require Import UdpModel.
From Coq Require Import List Arith Bool Lia.
From Verif Require Import FinLib Radix FmlaModel FmlaSpec ActModel ActSpec ActProofs NetModel NetSpec UgenModel UgenProofs UgenSpec.
Import ListNotations.

(** ** Printed functions *)
Lemma exec_T_eq : forall rets k pc, exec_T rets k pc = nth k rets pc.
Proof.
  induction rets as [|r rets IH]; intros k pc; cbn [exec_T].
  - destruct k; reflexivity.
  - destruct k as [|k]; cbn [Nat.eqb nth]; auto. rewrite IH. replace (S k - 1) with k by lia. reflexivity.
Qed.

Lemma list_eqb_eq : forall A (eqb : A -> A -> bool), (forall x y, eqb x y = true <-> x = y) ->
  forall a b, list_eqb eqb a b = true <-> a = b.
Proof.
  intros A eqb H. induction a as [|x a IH]; intros [|y b]; cbn; try (split; congruence).
  rewrite andb_true_iff, H, IH. split; [intros (-> & ->); auto|]. intros E. injection E. auto.
Qed.
Lemma line_eqb_eq : forall a b, line_eqb a b = true <-> a = b.
Proof.
  intros [a1 a2 a3] [b1 b2 b3]. unfold line_eqb. cbn. rewrite !andb_true_iff, !Nat.eqb_eq. split.
  - intros ((-> & ->) & ->). auto.
  - intros E. injection E. auto.
Qed.
Lemma vbody_eqb_eq : forall a b, vbody_eqb a b = true <-> a = b.
Proof.
  intros [a1 a2] [b1 b2]. unfold vbody_eqb. cbn. rewrite andb_true_iff, !(list_eqb_eq _ _ line_eqb_eq). split.
  - intros (-> & ->). auto.
  - intros E. injection E. auto.
Qed.
Lemma merge_some : forall bs s b pc, pc < s + length bs -> 1 <= s ->
  exec_chain (merge s (Some b) bs) pc = if pc <? s then Some b else nth_error bs (pc - s).
Proof.
  induction bs as [|b' bs IH]; intros s b pc L S1; cbn [merge length] in *.
  - unfold exec_chain. cbn [find fst]. destruct (Nat.ltb_spec pc s); [reflexivity|lia].
  - destruct (vbody_eqb b' b) eqn:E.
    + apply vbody_eqb_eq in E. subst b'. rewrite IH by lia. destruct (Nat.ltb_spec pc s), (Nat.ltb_spec pc (S s)); try lia; auto.
      * replace (pc - s) with 0 by lia. reflexivity.
      * replace (pc - s) with (S (pc - S s)) by lia. reflexivity.
    + unfold exec_chain. cbn [find fst]. destruct (Nat.ltb_spec pc s); [reflexivity|]. fold (exec_chain (merge (S s) (Some b') bs) pc).
      rewrite IH by lia. destruct (Nat.ltb_spec pc (S s)).
      * replace (pc - s) with 0 by lia. reflexivity.
      * replace (pc - s) with (S (pc - S s)) by lia. reflexivity.
Qed.
Lemma merge_exec : forall bs pc, pc < length bs -> exec_chain (merge 0 None bs) pc = nth_error bs pc.
Proof.
  intros [|b bs] pc L; cbn [length merge] in *; [lia|]. rewrite merge_some by lia. destruct (Nat.ltb_spec pc 1).
  - replace pc with 0 by lia. reflexivity.
  - replace pc with (S (pc - 1)) by lia. cbn. rewrite Nat.sub_0_r. reflexivity.
Qed.

Lemma find_line : forall (f : nat -> nat) k j vs s t,
  find (fun l => (k =? l_chan l) && (j =? l_i l)) (map (fun iv => mkLine s (fst iv) (f (snd iv))) (combine (seq t (length vs)) vs))
  = if (k =? s) && (t <=? j) && (j <? t + length vs) then Some (mkLine s j (f (nth (j - t) vs 0))) else None.
Proof.
  intros f k j. induction vs as [|v vs IH]; intros s t; cbn [length seq combine map find l_chan l_i fst snd].
  - destruct (Nat.leb_spec t j), (Nat.ltb_spec j (t + 0)); try lia; rewrite ?andb_false_r; cbn; rewrite ?andb_false_r; reflexivity.
  - destruct (Nat.eqb_spec k s) as [->|D]; cbn [andb].
    + destruct (Nat.eqb_spec j t) as [->|D2].
      * rewrite Nat.leb_refl. destruct (Nat.ltb_spec t (t + S (length vs))); [|lia]. rewrite Nat.sub_diag. reflexivity.
      * rewrite IH, Nat.eqb_refl. cbn [andb]. destruct (Nat.leb_spec (S t) j), (Nat.leb_spec t j), (Nat.ltb_spec j (S t + length vs)), (Nat.ltb_spec j (t + S (length vs))); try lia; auto.
        cbn [andb]. replace (j - t) with (S (j - S t)) by lia. reflexivity.
    + rewrite IH. destruct (Nat.eqb_spec k s); [contradiction|]. reflexivity.
Qed.
Lemma find_app : forall A (f : A -> bool) l1 l2, find f (l1 ++ l2) = match find f l1 with Some x => Some x | None => find f l2 end.
Proof. intros A f. induction l1 as [|x l1 IH]; intros l2; cbn; auto. destruct (f x); auto. Qed.
Lemma exec_lines_eq : forall vs vbls max k j,
  exec_lines (lines vs vbls) max k j = if j <? length (nth k vbls []) then local_idx vs (nth j (nth k vbls []) 0) else max.
Proof.
  intros vs vbls max k j. unfold exec_lines, lines.
  assert (G : forall vbls s, find (fun l => (k =? l_chan l) && (j =? l_i l))
     (flat_map (fun cv => map (fun iv => mkLine (fst cv) (fst iv) (local_idx vs (snd iv))) (combine (seq 0 (length (snd cv))) (snd cv)))
       (combine (seq s (length vbls)) vbls))
     = if (s <=? k) && (j <? length (nth (k - s) vbls [])) then Some (mkLine k j (local_idx vs (nth j (nth (k - s) vbls []) 0))) else None).
  { clear vbls. induction vbls as [|v vbls IH]; intros s; cbn [length seq combine flat_map fst snd].
    - cbn. destruct (k - s); cbn; destruct (s <=? k); reflexivity.
    - rewrite find_app, find_line. cbn [Nat.leb plus]. rewrite andb_true_r, Nat.sub_0_r. destruct (Nat.eqb_spec k s) as [->|D]; cbn [andb].
      + rewrite Nat.leb_refl, Nat.sub_diag. cbn [nth andb]. destruct (j <? length v) eqn:E; auto. rewrite IH.
        destruct (Nat.leb_spec (S s) s); [lia|]. reflexivity.
      + rewrite IH. destruct (Nat.leb_spec (S s) k), (Nat.leb_spec s k); try lia; auto. cbn [andb].
        replace (k - s) with (S (k - S s)) by lia. reflexivity. }
  rewrite G. cbn [Nat.leb andb]. rewrite Nat.sub_0_r. destruct (j <? length (nth k vbls [])); reflexivity.
Qed.

(** ** Local numbers *)
Lemma last_index_spec : forall l s x d, In x l -> s <= last_index s l x d < s + length l /\ nth (last_index s l x d - s) l 0 = x.
Proof.
  assert (G : forall l s x d, (In x l -> s <= last_index s l x d < s + length l /\ nth (last_index s l x d - s) l 0 = x) /\
              (~ In x l -> last_index s l x d = d)).
  { induction l as [|y l IH]; intros s x d; cbn [last_index length]; [split; [intros []|auto]|].
    destruct (in_dec Nat.eq_dec x l) as [I|I].
    - destruct (IH (S s) x (if y =? x then s else d)) as (A & _). destruct (A I) as (A1 & A2). split; [|intros X; exfalso; apply X; cbn; auto].
      intros _. split; [lia|]. set (r := last_index _ _ _ _) in *. replace (r - s) with (S (r - S s)) by lia. exact A2.
    - destruct (IH (S s) x (if y =? x then s else d)) as (_ & B). rewrite (B I). split.
      + intros [->|C]; [|contradiction]. rewrite Nat.eqb_refl, Nat.sub_diag. cbn. split; [lia|reflexivity].
      + intros C. destruct (Nat.eqb_spec y x); auto. exfalso. apply C. cbn. auto. }
  intros. apply G. auto.
Qed.

(** ** The channel tables of a network *)
Lemma max_le : forall l m x, In x l -> x <= fold_left Nat.max l m.
Proof.
  assert (M : forall l m, m <= fold_left Nat.max l m).
  { induction l as [|y l IH]; intros m; cbn; auto. specialize (IH (Nat.max m y)). lia. }
  induction l as [|y l IH]; intros m x H; [destruct H|]. destruct H as [->|H]; cbn; [|auto]. specialize (M l (Nat.max m x)). lia.
Qed.

Lemma sent_to_nth : forall chs k, NoDup (map u_pc chs) -> k < length chs -> sent_to (u_pc (nth k chs (mkUchan 0 []))) chs = u_vbls (nth k chs (mkUchan 0 [])).
Proof.
  induction chs as [|c chs IH]; intros k ND L; [cbn in L; lia|]. inversion ND as [|x l N1 N2]; subst. unfold sent_to in *. cbn [flat_map].
  destruct k as [|k]; cbn [nth].
  - rewrite Nat.eqb_refl. assert (Z : forall l, ~ In (u_pc c) (map u_pc l) -> flat_map (fun c0 => if u_pc c0 =? u_pc c then u_vbls c0 else []) l = []).
    { induction l as [|c' l IH']; intros X; cbn in *; auto. destruct (Nat.eqb_spec (u_pc c') (u_pc c)); [tauto|]. cbn. apply IH'. tauto. }
    rewrite Z by auto. apply app_nil_r.
  - cbn in L. destruct (Nat.eqb_spec (u_pc c) (u_pc (nth k chs (mkUchan 0 [])))) as [E|E].
    + exfalso. apply N1. rewrite E. apply in_map. apply nth_In. lia.
    + cbn. apply IH; auto. lia.
Qed.
Lemma chan_idx_spec : forall chs o, channel_to o chs -> chan_idx o chs < length chs /\ u_pc (nth (chan_idx o chs) chs (mkUchan 0 [])) = o.
Proof.
  unfold channel_to. induction chs as [|c chs IH]; intros o H; [destruct H|]. cbn [chan_idx]. cbn [map In] in H. destruct (Nat.eqb_spec (u_pc c) o) as [E|E].
  - cbn. split; [lia|auto].
  - destruct H as [H|H]; [congruence|]. destruct (IH o H) as (A & B). cbn. split; [lia|auto].
Qed.

Section Net.
Variable O : network.
Hypothesis HN : net_ok O.
Notation n := (length (pcs O)).

Lemma shown_puppets : forall k, shown k = puppets k.
Proof. intros k. unfold shown, puppets, puppet_ck. apply filter_ext. intros i. unfold acc. destruct (a_role _); reflexivity. Qed.
Lemma screen_vars : forall p, map g_vbl (udp_vbls O p) = screen O p.
Proof. intros p. unfold udp_vbls, screen. rewrite map_map. rewrite <- shown_puppets. reflexivity. Qed.
Lemma n_tables : length (tables O) = n.
Proof. unfold tables. apply map_length. Qed.
Lemma vars_eq : forall i p, nth_error (pcs O) i = Some p -> vars O i = udp_vbls O p.
Proof.
  intros i p H. unfold vars, tables. apply nth_error_nth. apply map_nth_error. auto.
Qed.
Lemma shown_lt : forall k i, In i (shown k) -> i < length (accs k).
Proof. intros k i H. apply filter_In in H. destruct H as (H & _). apply in_seq in H. lia. Qed.
Lemma range_ok : forall i g, In g (vars O i) -> g_vbl g < length (vdoms O).
Proof.
  intros i g H. destruct (nth_error (pcs O) i) as [p|] eqn:E.
  - rewrite (vars_eq i p E) in H. apply in_map_iff in H. destruct H as (a & <- & H). cbn. rewrite <- shown_puppets in H. apply shown_lt in H.
    apply (no_id _ HN p a (nth_error_In _ _ E) H).
  - exfalso. apply nth_error_None in E. unfold vars in H. rewrite nth_overflow in H by (rewrite n_tables; auto). destruct H.
Qed.
Lemma var_in : forall i g, In g (vars O i) -> exists p, nth_error (pcs O) i = Some p /\ In (g_vbl g) (screen O p).
Proof.
  intros i g H. destruct (nth_error (pcs O) i) as [p|] eqn:E.
  - exists p. split; auto. rewrite (vars_eq i p E) in H. rewrite <- screen_vars. apply in_map. auto.
  - exfalso. apply nth_error_None in E. unfold vars in H. rewrite nth_overflow in H by (rewrite n_tables; auto). destruct H.
Qed.

Let SPEC := chans_spec O range_ok.
Definition chs (i : nat) : list uchan := nth i (chans_of O) [].
Lemma chs_nodup : forall i, i < n -> NoDup (map u_pc (chs i)).
Proof. intros i H. apply SPEC. rewrite n_tables. auto. Qed.
Lemma chs_sent : forall i o, i < n -> sent_to o (chs i) = if i =? o then [] else map g_vbl (filter (fun g => owner O (g_vbl g) =? i) (vars O o)).
Proof. intros i o H. apply SPEC. rewrite n_tables. auto. Qed.
Lemma chs_to : forall i o, i < n -> (channel_to o (chs i) <-> i <> o /\
     ((exists g, In g (vars O i) /\ owner O (g_vbl g) = o) \/ (exists g, In g (vars O o) /\ owner O (g_vbl g) = i))).
Proof. intros i o H. apply SPEC. rewrite n_tables. auto. Qed.
Lemma chs_sym : forall i o, i < n -> channel_to o (chs i) -> o < n /\ channel_to i (chs o).
Proof. intros i o H C. pose proof (channel_sym O range_ok i o) as X. rewrite n_tables in X. apply X; auto. Qed.

(** process_of_channel *)
Lemma poc_eq : forall i k, i < n -> exec_process_of_channel (gen_process_of_channel O) i k = nth k (map u_pc (chs i)) i.
Proof.
  intros i k H. unfold exec_process_of_channel, gen_process_of_channel. rewrite exec_T_eq. f_equal.
  change (@nil nat) with (map u_pc []). rewrite (map_nth (map u_pc)). reflexivity.
Qed.
Lemma poc_in : forall i k, i < n -> k < length (chs i) -> channel_to (exec_process_of_channel (gen_process_of_channel O) i k) (chs i) /\
  exec_process_of_channel (gen_process_of_channel O) i k = u_pc (nth k (chs i) (mkUchan 0 [])).
Proof.
  intros i k H L. rewrite poc_eq by auto. split; [apply nth_In; rewrite map_length; auto|].
  rewrite nth_indep with (d' := u_pc (mkUchan 0 [])) by (rewrite map_length; auto). apply map_nth.
Qed.

(** variable_of_channel *)
Lemma vchain : forall i, i < n -> exec_chain (gen_variable_of_channel O) i = Some (vbody_of O i).
Proof.
  intros i H. unfold gen_variable_of_channel. rewrite merge_exec by (rewrite map_length, seq_length; auto).
  assert (E : nth_error (seq 0 n) i = Some i).
  { rewrite nth_error_nth' with (d := 0) by (rewrite seq_length; auto). rewrite seq_nth by auto. reflexivity. }
  apply (map_nth_error (vbody_of O) i (seq 0 n) E).
Qed.
Definition to_send (i k : nat) : list nat := nth k (map u_vbls (chs i)) [].
Definition to_receive (i k : nat) : list nat :=
  nth k (map (fun c => let other := nth (u_pc c) (chans_of O) [] in u_vbls (nth (chan_idx i other) other (mkUchan 0 []))) (chs i)) [].
Lemma voc_eq : forall max i k j (w : bool), i < n ->
  exec_variable_of_channel (gen_variable_of_channel O) max i k j w =
    let l := if w then to_send i k else to_receive i k in
    if j <? length l then local_idx (vars O i) (nth j l 0) else max.
Proof.
  intros max i k j w H. unfold exec_variable_of_channel. rewrite vchain by auto. unfold vbody_of. cbv zeta. cbn [fst snd].
  destruct w; rewrite exec_lines_eq; reflexivity.
Qed.
Lemma to_send_eq : forall i k, i < n -> k < length (chs i) -> let o := u_pc (nth k (chs i) (mkUchan 0 [])) in
  to_send i k = map g_vbl (filter (fun g => owner O (g_vbl g) =? i) (vars O o)).
Proof.
  intros i k H L o. unfold to_send. rewrite nth_indep with (d' := u_vbls (mkUchan 0 [])) by (rewrite map_length; auto).
  rewrite (map_nth u_vbls). rewrite <- sent_to_nth by (auto using chs_nodup). rewrite chs_sent by auto. fold o.
  assert (C : channel_to o (chs i)) by (apply in_map; apply nth_In; auto). apply chs_to in C; auto. destruct C as (C & _).
  destruct (Nat.eqb_spec i o); [contradiction|reflexivity].
Qed.
Lemma to_receive_eq : forall i k, i < n -> k < length (chs i) -> let o := u_pc (nth k (chs i) (mkUchan 0 [])) in
  to_receive i k = map g_vbl (filter (fun g => owner O (g_vbl g) =? o) (vars O i)).
Proof.
  intros i k H L o. unfold to_receive.
  set (f := fun c => let other := nth (u_pc c) (chans_of O) [] in u_vbls (nth (chan_idx i other) other (mkUchan 0 []))).
  rewrite nth_indep with (d' := f (mkUchan 0 [])) by (rewrite map_length; auto). rewrite (map_nth f). unfold f. fold o. fold (chs o). cbv zeta.
  assert (C : channel_to o (chs i)) by (apply in_map; apply nth_In; auto). destruct (chs_sym i o H C) as (Ho & C').
  destruct (chan_idx_spec (chs o) i C') as (A1 & A2). rewrite <- (sent_to_nth (chs o)) by (auto using chs_nodup). rewrite A2, chs_sent by auto.
  apply chs_to in C; auto. destruct C as (C & _). destruct (Nat.eqb_spec o i); [congruence|reflexivity].
Qed.

Lemma local_idx_spec : forall i p v, nth_error (pcs O) i = Some p -> In v (screen O p) ->
  nth_error (screen O p) (local_idx (vars O i) v) = Some v.
Proof.
  intros i p v H I. unfold local_idx. rewrite (vars_eq i p H), screen_vars.
  destruct (last_index_spec (screen O p) 0 v 0 I) as (A & B). rewrite Nat.sub_0_r in B.
  rewrite nth_error_nth' with (d := 0) by lia. f_equal. exact B.
Qed.
Lemma screen_max : forall i p, nth_error (pcs O) i = Some p -> length (screen O p) <= max_nvbls O.
Proof.
  intros i p H. rewrite <- screen_vars, map_length. apply max_le. apply in_map_iff. exists (udp_vbls O p). split; auto.
  unfold tables. apply in_map. eapply nth_error_In; eauto.
Qed.
Lemma pc_at : forall i, i < n -> exists p, nth_error (pcs O) i = Some p.
Proof. intros i H. destruct (nth_error (pcs O) i) as [p|] eqn:E; [eauto|]. apply nth_error_None in E. lia. Qed.

Lemma count_channels_eq : forall F, f_process_of_channel F = gen_process_of_channel O -> f_nchannels F = max_nchannels O ->
  forall i, i < n -> n_channels F i = length (chs i).
Proof.
  intros F E1 E2 i H. unfold n_channels. rewrite E2.
  assert (B : length (chs i) <= max_nchannels O).
  { apply max_le. apply in_map. apply nth_In. destruct SPEC as (L & _). rewrite L, n_tables. auto. }
  assert (G : forall fuel k, k <= length (chs i) -> length (chs i) - k <= fuel -> count_channels fuel F i k = length (chs i)).
  { induction fuel as [|fuel IH]; intros k A1 A2; cbn [count_channels]; [lia|]. rewrite E1.
    destruct (Nat.eq_dec k (length (chs i))) as [->|D].
    - rewrite poc_eq by auto. rewrite nth_overflow by (rewrite map_length; auto). rewrite Nat.eqb_refl. reflexivity.
    - destruct (poc_in i k H ltac:(lia)) as (C & _). apply chs_to in C; auto. destruct C as (C & _).
      destruct (Nat.eqb_spec (exec_process_of_channel (gen_process_of_channel O) i k) i); [congruence|]. apply IH; lia. }
  apply G; lia.
Qed.
End Net.
