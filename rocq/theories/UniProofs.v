(** Lemmas about the unidirectional-ring data conversions. *)
From Coq Require Import List Arith Lia Bool Ascii.
From Verif Require Import FinLib UniModel UniSpec.
Import ListNotations.

(** ** Ids (C01) *)
Lemma id2_lt : forall M a b, a < M -> b < M -> id_of2 a b M < M * M.
Proof. unfold id_of2; intros. nia. Qed.

Lemma id3_lt : forall M a b c, a < M -> b < M -> c < M -> id_of3 a b c M < M * M * M.
Proof. unfold id_of3; intros. assert (a*M+b < M*M) by nia. nia. Qed.

Lemma id2_inj : forall M a b a' b', b < M -> b' < M ->
  id_of2 a b M = id_of2 a' b' M -> a = a' /\ b = b'.
Proof.
  unfold id_of2; intros. 
  assert (a = a'). { 
    assert ((a * M + b)/M = a) by (rewrite Nat.div_add_l by lia; rewrite Nat.div_small; lia).
    assert ((a' * M + b')/M = a') by (rewrite Nat.div_add_l by lia; rewrite Nat.div_small; lia).
    congruence. }
  subst. lia.
Qed.

Lemma id3_inj : forall M a b c a' b' c', b < M -> b' < M -> c < M -> c' < M ->
  id_of3 a b c M = id_of3 a' b' c' M -> a = a' /\ b = b' /\ c = c'.
Proof.
  intros. unfold id_of3 in H3.
  change ((a * M + b) * M + c) with (id_of2 (id_of2 a b M) c M) in H3.
  change ((a' * M + b') * M + c') with (id_of2 (id_of2 a' b' M) c' M) in H3.
  apply id2_inj in H3; auto. destruct H3. apply id2_inj in H3; auto. tauto.
Qed.

Lemma unistep_of_id2 : forall M a b, a < M -> b < M -> unistep_of_id (id_of2 a b M) M = (a, b).
Proof.
  intros. unfold unistep_of_id, id_of2.
  rewrite Nat.div_add_l by lia. rewrite Nat.div_small by lia.
  rewrite (Nat.add_comm (a * M) b), Nat.mod_add by lia. rewrite Nat.mod_small by lia.
  f_equal; lia.
Qed.

Lemma uniact_of_id3 : forall M a b c, a < M -> b < M -> c < M ->
  uniact_of_id (id_of3 a b c M) M = (a, b, c).
Proof.
  intros. unfold uniact_of_id, id_of3.
  assert (E1 : ((a * M + b) * M + c) / M = a * M + b).
  { rewrite Nat.div_add_l by lia. rewrite Nat.div_small by lia. lia. }
  assert (E2 : ((a * M + b) * M + c) mod M = c).
  { rewrite Nat.add_comm, Nat.mod_add by lia. apply Nat.mod_small; lia. }
  rewrite E1, E2. pose proof (unistep_of_id2 M a b H H0) as E.
  unfold unistep_of_id, id_of2 in E. injection E as -> ->. reflexivity.
Qed.

Lemma unistep_of_id_range : forall M i, i < M * M ->
  let '(a, b) := unistep_of_id i M in a < M /\ b < M /\ id_of2 a b M = i.
Proof.
  intros. unfold unistep_of_id, id_of2. assert (M <> 0) by nia.
  pose proof (Nat.div_mod i M H0). pose proof (Nat.mod_upper_bound i M H0).
  split; [|split]; auto; [|nia]. apply Nat.div_lt_upper_bound; lia.
Qed.

Lemma uniact_of_id_range : forall M i, i < M * M * M ->
  let '(a, b, c) := uniact_of_id i M in a < M /\ b < M /\ c < M /\ id_of3 a b c M = i.
Proof.
  intros. assert (M <> 0) by nia. unfold uniact_of_id, id_of3.
  pose proof (Nat.div_mod i M H0). pose proof (Nat.mod_upper_bound i M H0).
  assert (i / M < M * M) by (apply Nat.div_lt_upper_bound; nia).
  pose proof (unistep_of_id_range M (i/M) H3) as R. unfold unistep_of_id, id_of2 in R.
  destruct R as (R1 & R2 & R3). repeat split; auto. rewrite R3. nia.
Qed.

(** ** grow_while *)
Lemma grow_while_spec : forall m sz, (forall d, m d < m (S d)) -> forall fuel d0,
  sz <= m (d0 + fuel) ->
  let d := grow_while m sz fuel d0 in
  d0 <= d /\ sz <= m d /\ (forall d', d0 <= d' < d -> m d' < sz).
Proof.
  intros m sz Hm. induction fuel; intros d0 H; simpl.
  - rewrite Nat.add_0_r in H. repeat split; auto; lia.
  - destruct (m d0 <? sz) eqn:E.
    + apply Nat.ltb_lt in E. specialize (IHfuel (d0 + 1)).
      replace (d0 + 1 + fuel) with (d0 + S fuel) in IHfuel by lia.
      destruct (IHfuel H) as (A & B & C). split; [lia|]. split; auto.
      intros d' Hd'. destruct (Nat.eq_dec d' d0); [subst; auto|]. apply C; lia.
    + apply Nat.ltb_ge in E. repeat split; auto; lia.
Qed.

Lemma mono_lt : forall m, (forall d, m d < m (S d)) -> forall a b, a < b -> m a < m b.
Proof.
  intros m H a b Hab. induction Hab; auto. specialize (H m0). lia.
Qed.

Lemma mono_id : forall m, (forall d, m d < m (S d)) -> forall a, a <= m a.
Proof. intros m H a. induction a; [lia|]. specialize (H a). lia. Qed.

Lemma grow_while_exact : forall m fuel d0 k, (forall d, m d < m (S d)) -> d0 <= k ->
  m k <= m (d0 + fuel) ->
  grow_while m (m k) fuel d0 = k.
Proof.
  intros m fuel d0 k Hm Hk Hf. destruct (grow_while_spec m (m k) Hm fuel d0 Hf) as (A & B & C).
  set (d := grow_while m (m k) fuel d0) in *.
  destruct (lt_eq_lt_dec d k) as [[L|E]|G]; auto.
  - pose proof (mono_lt m Hm d k L). lia.
  - specialize (C k). lia.
Qed.

Lemma sq_mono : forall d, d * d < S d * S d. Proof. intros; nia. Qed.
Lemma cube_mono : forall d, d * d * d < S d * S d * S d. Proof. intros; nia. Qed.

Lemma byte_small : forall x, x <= 255 -> byte x = x.
Proof. intros. unfold byte. apply Nat.mod_small. lia. Qed.

(** ** C03 *)
Lemma domsz_of_ppgfun_square : forall t k, k <= 255 -> length t = k * k -> domsz_of_ppgfun t = k.
Proof.
  intros t k Hk H. unfold domsz_of_ppgfun. rewrite H.
  rewrite (grow_while_exact (fun d => d * d) (k * k) 0 k sq_mono); [|lia|nia].
  rewrite Nat.eqb_refl. apply byte_small; auto.
Qed.

Lemma domsz_of_ppgfun_nonsquare : forall t, (forall k, length t <> k * k) -> domsz_of_ppgfun t = 0.
Proof.
  intros. unfold domsz_of_ppgfun.
  destruct (length t =? _) eqn:E; auto. apply Nat.eqb_eq in E. destruct (H _ E).
Qed.

Lemma domsz_of_actset_cube : forall t k, k <= 255 -> length t = k * k * k -> domsz_of_actset t = k.
Proof.
  intros t k Hk H. unfold domsz_of_actset. rewrite H.
  rewrite (grow_while_exact (fun d => d * d * d) (k * k * k) 0 k cube_mono); [|lia|].
  - rewrite Nat.eqb_refl. apply byte_small; auto.
  - simpl. destruct k; [lia|]. assert (S k <= S k * S k * S k) by nia.
    set (x := S k * S k * S k) in *. assert (1 <= x) by lia. nia.
Qed.

Lemma domsz_of_actset_noncube : forall t, (forall k, length t <> k * k * k) -> domsz_of_actset t = 0.
Proof.
  intros. unfold domsz_of_actset.
  destruct (length t =? _) eqn:E; auto. apply Nat.eqb_eq in E. destruct (H _ E).
Qed.

Definition act_max (t : UniAct) : nat := let '(a, b, c) := t in Nat.max a (Nat.max b c).

Lemma domsz_of_acts_fold : forall acts d0,
  fold_left
    (fun domsz act =>
       let '(a, b, c) := act in
       let domsz := if domsz <? a + 1 then a + 1 else domsz in
       let domsz := if domsz <? b + 1 then b + 1 else domsz in
       if domsz <? c + 1 then c + 1 else domsz)
    acts d0 = fold_left (fun d act => Nat.max d (S (act_max act))) acts d0.
Proof.
  induction acts as [|[[a b] c] acts IH]; intros d0; simpl; auto.
  rewrite IH. f_equal.
  destruct (d0 <? a + 1) eqn:E1;
  [apply Nat.ltb_lt in E1 | apply Nat.ltb_ge in E1].
  - destruct (a + 1 <? b + 1) eqn:E2;
    [apply Nat.ltb_lt in E2 | apply Nat.ltb_ge in E2];
    [destruct (b + 1 <? c + 1) eqn:E3| destruct (a + 1 <? c + 1) eqn:E3];
    (apply Nat.ltb_lt in E3 || apply Nat.ltb_ge in E3); lia.
  - destruct (d0 <? b + 1) eqn:E2;
    [apply Nat.ltb_lt in E2 | apply Nat.ltb_ge in E2];
    [destruct (b + 1 <? c + 1) eqn:E3| destruct (d0 <? c + 1) eqn:E3];
    (apply Nat.ltb_lt in E3 || apply Nat.ltb_ge in E3); lia.
Qed.

Lemma fold_max_spec : forall acts d0,
  let r := fold_left (fun d act => Nat.max d (S (act_max act))) acts d0 in
  d0 <= r /\ (forall t, In t acts -> act_max t < r) /\
  (r = d0 \/ exists t, In t acts /\ r = S (act_max t)).
Proof.
  induction acts as [|t acts IH]; intros d0; simpl.
  - repeat split; auto. intros t [].
  - destruct (IH (Nat.max d0 (S (act_max t)))) as (A & B & C).
    split; [lia|]. split.
    + intros t' [<-|H]; [lia|auto].
    + destruct C as [C|(t' & Ht' & C)]; [|eauto].
      destruct (Nat.max_spec d0 (S (act_max t))) as [[_ E]|[_ E]]; rewrite E in C at 2; eauto.
Qed.

Lemma domsz_of_acts_spec : forall acts,
  (forall a b c, In (a, b, c) acts -> a < 255 /\ b < 255 /\ c < 255) ->
  (forall a b c, In (a, b, c) acts ->
     a < domsz_of_acts acts /\ b < domsz_of_acts acts /\ c < domsz_of_acts acts) /\
  (acts <> [] -> exists a b c, In (a, b, c) acts /\
     (domsz_of_acts acts = S a \/ domsz_of_acts acts = S b \/ domsz_of_acts acts = S c)) /\
  (acts = [] -> domsz_of_acts acts = 0).
Proof.
  intros acts Hr. unfold domsz_of_acts. rewrite domsz_of_acts_fold.
  destruct (fold_max_spec acts 0) as (A & B & C).
  set (r := fold_left (fun (d : nat) (act : UniAct) => Nat.max d (S (act_max act))) acts 0) in *.
  assert (Hr255 : r <= 255).
  { destruct C as [C|([[a b] c] & Ht & C)]; [lia|]. apply Hr in Ht. unfold act_max in C. lia. }
  rewrite byte_small by auto. split; [|split].
  - intros a b c H. apply B in H. unfold act_max in H. lia.
  - intros Hne. destruct C as [C|([[a b] c] & Ht & C)].
    + destruct acts as [|t acts]; [congruence|]. specialize (B t (or_introl eq_refl)). lia.
    + exists a, b, c. split; auto. unfold act_max in C. lia.
  - intros ->. reflexivity.
Qed.

(** ** C02 *)

Lemma nth_error_of_nth : forall A (l : list A) i d, i < length l -> nth_error l i = Some (nth i l d).
Proof. intros. apply List.nth_error_nth'; auto. Qed.

Lemma table_protocol_nth : forall M t a b c, length t = M * M -> a < M -> b < M ->
  (table_protocol M t a b c <-> c < M /\ nth (id_of2 a b M) t M = c).
Proof.
  intros M t a b c L Ha Hb. unfold table_protocol, id_of2.
  pose proof (id2_lt M a b Ha Hb) as Hlt. unfold id_of2 in Hlt.
  rewrite (nth_error_of_nth _ t (a * M + b) M) by lia.
  split.
  - intros (_ & _ & H1 & H2). injection H2 as H2. auto.
  - intros (H1 & H2). repeat split; auto; congruence.
Qed.


Lemma actions_of_ppgfun_spec : forall M t, M <> 0 -> length t = M * M ->
  forall a b c, In (a, b, c) (actions_of_ppgfun t M) <-> table_protocol M t a b c.
Proof.
  intros M t HM L a b c. unfold actions_of_ppgfun.
  apply Nat.eqb_neq in HM. rewrite HM. rewrite in_flat_map. split.
  - intros (a' & Ha & H). apply in_flat_map in H. destruct H as (b' & Hb & H).
    apply in_seq in Ha, Hb.
    destruct (_ <? M) eqn:E; [|destruct H]. destruct H as [H|[]]. injection H as -> -> <-.
    apply Nat.ltb_lt in E. apply table_protocol_nth; auto; lia.
  - intros H. assert (a < M /\ b < M) as [Ha Hb] by (destruct H; tauto).
    apply table_protocol_nth in H; auto. destruct H as [H1 H2].
    exists a. split; [apply in_seq; lia|]. apply in_flat_map.
    exists b. split; [apply in_seq; lia|]. rewrite H2.
    apply Nat.ltb_lt in H1. rewrite H1. left; auto.
Qed.

Lemma NoDup_flat_map : forall A B (f : A -> list B) l,
  NoDup l -> (forall x, In x l -> NoDup (f x)) ->
  (forall x y z, In x l -> In y l -> In z (f x) -> In z (f y) -> x = y) ->
  NoDup (flat_map f l).
Proof.
  induction l as [|x l IH]; intros ND Hf Hd; simpl; [constructor|].
  inversion ND as [|? ? Hnx NDl]; subst.
  assert (NoDup (flat_map f l)) by (apply IH; auto; intros; [apply Hf; right; auto | eapply Hd; eauto; right; auto]).
  assert (forall z, In z (f x) -> ~ In z (flat_map f l)).
  { intros z Hz Hin. apply in_flat_map in Hin. destruct Hin as (y & Hy & Hzy).
    assert (x = y) by (eapply Hd; eauto; [left; auto | right; auto]). subst. auto. }
  assert (NoDup (f x)) by (apply Hf; left; auto).
  revert H0 H1. generalize (f x) as fx. induction fx as [|z fx IHf]; intros H0 H1; simpl; auto.
  inversion H1; subst. constructor.
  - rewrite in_app_iff. intros [H2|H2]; [auto|]. eapply H0; eauto. left; auto.
  - apply IHf; auto. intros; apply H0; right; auto.
Qed.

Lemma actions_of_ppgfun_NoDup : forall M t, M <> 0 -> NoDup (actions_of_ppgfun t M).
Proof.
  intros M t HM. unfold actions_of_ppgfun. apply Nat.eqb_neq in HM. rewrite HM.
  apply NoDup_flat_map; [apply seq_NoDup| |].
  - intros a _. apply NoDup_flat_map; [apply seq_NoDup| |].
    + intros b _. destruct (_ <? M); repeat constructor; simpl; tauto.
    + intros b b' z _ _. destruct (nth (id_of2 a b M) t M <? M), (nth (id_of2 a b' M) t M <? M);
      simpl; try tauto. intros [<-|[]] [H|[]]. congruence.
  - intros a a' z _ _ H1 H2. apply in_flat_map in H1, H2.
    destruct H1 as (b & _ & H1), H2 as (b' & _ & H2).
    destruct (nth (id_of2 a b M) t M <? M); [|destruct H1].
    destruct (nth (id_of2 a' b' M) t M <? M); [|destruct H2].
    destruct H1 as [<-|[]], H2 as [H2|[]]. congruence.
Qed.

Lemma put_act_length : forall M acts t, length (fold_left (put_act M) acts t) = length t.
Proof.
  induction acts as [|[[a b] c] acts IH]; intros t; simpl; auto.
  rewrite IH. apply upd_length.
Qed.

Definition act_range (M : nat) (act : UniAct) : Prop :=
  let '(a, b, c) := act in a < M /\ b < M /\ c < M.

(** Reading the table after writing a list of in-range actions. *)
Lemma put_acts_nth : forall M acts t a b,
  Forall (act_range M) acts -> length t = M * M -> a < M -> b < M ->
  let v := nth (id_of2 a b M) (fold_left (put_act M) acts t) M in
  In (a, b, v) acts \/ (v = nth (id_of2 a b M) t M /\ forall c, ~ In (a, b, c) acts).
Proof.
  induction acts as [|[[a' b'] c'] acts IH]; intros t a b HF L Ha Hb; simpl.
  - right. split; auto.
  - inversion HF; subst. destruct H1 as (H1 & H3 & H4).
    assert (L' : length (upd t (id_of2 a' b' M) c') = M * M) by (rewrite upd_length; auto).
    destruct (IH (upd t (id_of2 a' b' M) c') a b H2 L' Ha Hb) as [H|[H Hn]].
    + left. right. exact H.
    + destruct (Nat.eq_dec (id_of2 a b M) (id_of2 a' b' M)) as [E|E].
      * rewrite E in H at 2. rewrite nth_upd_same in H by (rewrite L; apply id2_lt; auto).
        apply id2_inj in E; auto. destruct E as [-> ->]. left. left. f_equal. auto.
      * rewrite nth_upd_other in H by auto. right. split; auto.
        intros c [Heq|Hin]; [|eapply Hn; eauto]. injection Heq as -> -> ->. auto.
Qed.

Lemma ppgfun_of_acts_length : forall M acts, M <> 0 -> length (ppgfun_of_acts acts M) = M * M.
Proof.
  intros. unfold ppgfun_of_acts. apply Nat.eqb_neq in H. rewrite H.
  rewrite put_act_length, repeat_length. reflexivity.
Qed.

Lemma put_acts_le : forall M acts t,
  Forall (act_range M) acts -> Forall (fun c => c <= M) t ->
  Forall (fun c => c <= M) (fold_left (put_act M) acts t).
Proof.
  induction acts as [|[[a b] c] acts IH]; intros t HF Ht; simpl; auto.
  inversion HF; subst. apply IH; auto. apply Forall_upd; auto.
  destruct H1. lia.
Qed.

Lemma ppgfun_of_acts_ok : forall M acts, M <> 0 -> Forall (act_range M) acts ->
  table_ok M (ppgfun_of_acts acts M).
Proof.
  intros. split; [apply ppgfun_of_acts_length; auto|].
  unfold ppgfun_of_acts. apply Nat.eqb_neq in H. rewrite H.
  apply put_acts_le; auto. apply Forall_forall. intros x Hx. apply repeat_spec in Hx. lia.
Qed.

Lemma nth_repeat' : forall A (x : A) n i, nth i (repeat x n) x = x.
Proof. induction n; destruct i; simpl; auto. Qed.

Lemma ppgfun_of_acts_spec : forall M acts, M <> 0 -> Forall (act_range M) acts ->
  deterministic (fun a b c => In (a, b, c) acts) ->
  forall a b c, table_protocol M (ppgfun_of_acts acts M) a b c <-> In (a, b, c) acts.
Proof.
  intros M acts HM HF Hdet a b c.
  pose proof (ppgfun_of_acts_length M acts HM) as L.
  assert (Hin : In (a, b, c) acts -> a < M /\ b < M /\ c < M).
  { intros H. rewrite Forall_forall in HF. apply HF in H. exact H. }
  split.
  - intros H. assert (a < M /\ b < M) as [Ha Hb] by (destruct H; tauto).
    apply table_protocol_nth in H; auto. destruct H as [Hc H].
    unfold ppgfun_of_acts in H. apply Nat.eqb_neq in HM. rewrite HM in H.
    destruct (put_acts_nth M acts (repeat M (M * M)) a b HF (repeat_length _ _) Ha Hb) as [H1|[H1 _]].
    + cbv zeta in H1. rewrite H in H1. auto.
    + rewrite H in H1. rewrite nth_repeat' in H1. lia.
  - intros H. destruct (Hin H) as (Ha & Hb & Hc). apply table_protocol_nth; auto.
    split; auto. unfold ppgfun_of_acts. apply Nat.eqb_neq in HM. rewrite HM.
    destruct (put_acts_nth M acts (repeat M (M * M)) a b HF (repeat_length _ _) Ha Hb) as [H1|[_ H1]].
    + eapply Hdet; eauto.
    + destruct (H1 c H).
Qed.

(** Bit sets. *)
Lemma in_ones : forall bt i, In i (ones bt) <-> nth_error bt i = Some true.
Proof.
  intros. unfold ones. rewrite filter_In, in_seq. split.
  - intros [[_ H1] H2]. rewrite (nth_error_of_nth _ bt i false) by lia. congruence.
  - intros H. assert (i < length bt) by (apply nth_error_Some; congruence).
    rewrite (nth_error_of_nth _ bt i false) in H by auto. injection H as H. split; [lia|auto].
Qed.

Lemma ones_NoDup : forall bt, NoDup (ones bt).
Proof. intros. apply NoDup_filter, seq_NoDup. Qed.

(** generic: folding conditional [upd _ (g x) true] over a list *)
Lemma fold_set_true : forall A (g : A -> option nat) l bt i,
  nth i (fold_left (fun bt x => match g x with Some k => upd bt k true | None => bt end) l bt) false = true
  <-> nth i bt false = true \/ (i < length bt /\ exists x, In x l /\ g x = Some i).
Proof.
  induction l as [|x l IH]; intros bt i; simpl.
  - split; auto. intros [H|(_ & x & [] & _)]. auto.
  - rewrite IH. destruct (g x) as [k|] eqn:G.
    + rewrite upd_length. rewrite nth_upd.
      destruct (Nat.eq_dec i k) as [->|Hne].
      * rewrite Nat.eqb_refl. simpl. destruct (k <? length bt) eqn:E.
        -- apply Nat.ltb_lt in E. split; intros _; [right; split; eauto|left; auto].
        -- apply Nat.ltb_ge in E. split; intros [H|[H _]]; auto; lia.
      * apply Nat.eqb_neq in Hne. rewrite Hne. simpl. apply Nat.eqb_neq in Hne.
        split; intros [H|(H1 & y & H2 & H3)]; auto; right; split; auto; [eauto|].
        destruct H2 as [<-|H2]; eauto. congruence.
    + split; intros [H|(H1 & y & H2 & H3)]; auto; right; split; auto; [eauto|].
      destruct H2 as [<-|H2]; eauto. congruence.
Qed.

Lemma fold_set_length : forall A (g : A -> option nat) l bt,
  length (fold_left (fun bt x => match g x with Some k => upd bt k true | None => bt end) l bt) = length bt.
Proof.
  induction l as [|x l IH]; intros bt; simpl; auto. rewrite IH.
  destruct (g x); auto. apply upd_length.
Qed.

Lemma fold_left_flat : forall A B C (f : C -> B -> C) (g : A -> list B) l c,
  fold_left (fun c a => fold_left f (g a) c) l c = fold_left f (flat_map g l) c.
Proof.
  induction l; intros; simpl; auto. rewrite IHl, fold_left_app. reflexivity.
Qed.

Lemma fold_left_ext : forall A B (f g : A -> B -> A) l a,
  (forall a b, f a b = g a b) -> fold_left f l a = fold_left g l a.
Proof. induction l; intros; simpl; auto. rewrite H. auto. Qed.

Definition pair_list (M : nat) : list (nat * nat) :=
  flat_map (fun a => map (fun b => (a, b)) (seq 0 M)) (seq 0 M).

Lemma in_pair_list : forall M a b, In (a, b) (pair_list M) <-> a < M /\ b < M.
Proof.
  intros. unfold pair_list. rewrite in_flat_map. split.
  - intros (a' & H1 & H2). apply in_map_iff in H2. destruct H2 as (b' & H2 & H3).
    injection H2 as -> ->. apply in_seq in H1, H3. lia.
  - intros [H1 H2]. exists a. split; [apply in_seq; lia|].
    apply in_map_iff. exists b. split; auto. apply in_seq; lia.
Qed.

Definition actset_g (M : nat) (t : list nat) (ab : nat * nat) : option nat :=
  let '(a, b) := ab in
  let c := nth (id_of2 a b M) t M in
  if c <? M then Some (id_of3 a b c M) else None.

Lemma actset_of_ppgfun_alt : forall M t, M <> 0 ->
  actset_of_ppgfun t M =
  fold_left (fun bt x => match actset_g M t x with Some k => upd bt k true | None => bt end)
    (pair_list M) (repeat false (M * M * M)).
Proof.
  intros. unfold actset_of_ppgfun, pair_list. apply Nat.eqb_neq in H. rewrite H.
  rewrite <- fold_left_flat. apply fold_left_ext. intros bt a.
  generalize (seq 0 M). intros l. revert bt.
  induction l; intros bt; simpl; auto. rewrite IHl. f_equal. unfold actset_g.
  destruct (_ <? M); auto.
Qed.

Lemma actset_of_ppgfun_length : forall M t, M <> 0 -> length (actset_of_ppgfun t M) = M * M * M.
Proof. intros. rewrite actset_of_ppgfun_alt by auto. rewrite fold_set_length. apply repeat_length. Qed.

Lemma actset_of_ppgfun_spec : forall M t, M <> 0 -> length t = M * M ->
  forall a b c, a < M -> b < M -> c < M ->
  (nth_error (actset_of_ppgfun t M) (id_of3 a b c M) = Some true <-> table_protocol M t a b c).
Proof.
  intros M t HM L a b c Ha Hb Hc.
  pose proof (actset_of_ppgfun_length M t HM) as L3.
  pose proof (id3_lt M a b c Ha Hb Hc) as Hlt.
  rewrite (nth_error_of_nth _ _ _ false) by lia.
  rewrite table_protocol_nth by auto.
  rewrite actset_of_ppgfun_alt by auto.
  assert (S : forall x y : bool, Some x = Some y <-> x = y) by (intros; split; congruence).
  rewrite S. rewrite fold_set_true. split.
  - intros [H|(_ & [a' b'] & H1 & H2)].
    + rewrite nth_repeat' in H. discriminate.
    + unfold actset_g in H2. apply in_pair_list in H1. destruct (_ <? M) eqn:E; [|discriminate].
      injection H2 as H2. apply Nat.ltb_lt in E. apply id3_inj in H2; try tauto.
      destruct H2 as (-> & -> & H2). split; auto.
  - intros [_ H]. right. rewrite repeat_length. split; auto.
    exists (a, b). split; [apply in_pair_list; auto|]. unfold actset_g. rewrite H.
    apply Nat.ltb_lt in Hc. rewrite Hc. reflexivity.
Qed.

Lemma actions_of_actset_spec : forall M bt, M <> 0 -> length bt = M * M * M ->
  forall a b c, In (a, b, c) (actions_of_actset bt M) <->
    a < M /\ b < M /\ c < M /\ nth_error bt (id_of3 a b c M) = Some true.
Proof.
  intros M bt HM L a b c. unfold actions_of_actset. apply Nat.eqb_neq in HM. rewrite HM.
  rewrite in_map_iff. split.
  - intros (i & E & H). apply in_ones in H.
    assert (Hi : i < M * M * M) by (rewrite <- L; apply nth_error_Some; congruence).
    pose proof (uniact_of_id_range M i Hi) as R. rewrite E in R.
    destruct R as (R1 & R2 & R3 & R4). rewrite R4. auto.
  - intros (Ha & Hb & Hc & H). exists (id_of3 a b c M). split.
    + apply uniact_of_id3; auto.
    + apply in_ones; auto.
Qed.

Lemma ppgfun_of_actset_as_acts : forall M bt, M <> 0 ->
  ppgfun_of_actset bt M = ppgfun_of_acts (actions_of_actset bt M) M.
Proof.
  intros M bt HM. unfold ppgfun_of_actset, ppgfun_of_acts, actions_of_actset.
  apply Nat.eqb_neq in HM. rewrite HM. generalize (repeat M (M * M)).
  induction (ones bt); intros t; simpl; auto.
Qed.

Lemma ppgfun_of_actset_of_ppgfun : forall M t, M <> 0 -> table_ok M t ->
  ppgfun_of_actset (actset_of_ppgfun t M) M = t.
Proof.
  intros M t HM [L F]. rewrite ppgfun_of_actset_as_acts by auto.
  set (acts := actions_of_actset (actset_of_ppgfun t M) M).
  assert (Hin : forall a b c, In (a, b, c) acts <-> table_protocol M t a b c).
  { intros a b c. unfold acts. rewrite actions_of_actset_spec by (auto using actset_of_ppgfun_length).
    split.
    - intros (Ha & Hb & Hc & H). apply actset_of_ppgfun_spec in H; auto.
    - intros H. assert (a < M /\ b < M /\ c < M) as (Ha & Hb & Hc) by (destruct H; tauto).
      repeat split; auto. apply actset_of_ppgfun_spec; auto. }
  assert (HF : Forall (act_range M) acts).
  { apply Forall_forall. intros [[a b] c] H. apply Hin in H. destruct H. unfold act_range. tauto. }
  assert (Hdet : deterministic (fun a b c => In (a, b, c) acts)).
  { intros a b c d H1 H2. apply Hin in H1, H2. destruct H1 as (_ & _ & _ & H1), H2 as (_ & _ & _ & H2).
    congruence. }
  pose proof (ppgfun_of_acts_length M acts HM) as L2.
  pose proof (ppgfun_of_acts_ok M acts HM HF) as [_ F2].
  apply (list_ext_nth _ _ _ M); [lia|].
  intros i Hi. rewrite L2 in Hi. pose proof (unistep_of_id_range M i Hi) as R.
  destruct (unistep_of_id i M) as [a b]. destruct R as (Ha & Hb & <-).
  pose proof (ppgfun_of_acts_spec M acts HM HF Hdet) as PS.
  set (t2 := ppgfun_of_acts acts M) in *.
  assert (forall T, Forall (fun c => c <= M) T -> nth (id_of2 a b M) T M <= M) as Hle.
  { intros T FT. destruct (nth_in_or_default (id_of2 a b M) T M) as [H|H]; [|lia].
    rewrite Forall_forall in FT. auto. }
  pose proof (Hle t F) as B1. pose proof (Hle t2 F2) as B2.
  destruct (Nat.eq_dec (nth (id_of2 a b M) t M) M) as [E1|E1].
  - destruct (Nat.eq_dec (nth (id_of2 a b M) t2 M) M) as [E2|E2]; [congruence|].
    exfalso. assert (table_protocol M t2 a b (nth (id_of2 a b M) t2 M)) as H
      by (apply table_protocol_nth; auto; split; auto; lia).
    apply PS in H. apply Hin in H. apply table_protocol_nth in H; auto. lia.
  - assert (table_protocol M t a b (nth (id_of2 a b M) t M)) as H
      by (apply table_protocol_nth; auto; split; auto; lia).
    apply Hin in H. apply PS in H. apply table_protocol_nth in H; auto. tauto.
Qed.
