(** Generated UDP code: owners of variables and channels. *)
From Coq Require Import NArith.
From Verif Require Import UdpModel.
From Coq Require Import List Arith Bool Lia.
From Verif Require Import FinLib Radix FmlaModel ActModel NetModel UgenModel.
Import ListNotations.

Lemma in_indexed : forall A (l : list A) s i x, In (i, x) (combine (seq s (length l)) l) <-> s <= i /\ nth_error l (i - s) = Some x.
Proof.
  induction l as [|y l IH]; intros s i x; cbn [length seq combine].
  - split; [intros []|]. intros (_ & H). destruct (i - s); discriminate.
  - cbn [In]. rewrite IH. split.
    + intros [E|(H1 & H2)].
      * injection E as <- <-. split; [lia|]. rewrite Nat.sub_diag. reflexivity.
      * split; [lia|]. replace (i - s) with (S (i - S s)) by lia. exact H2.
    + intros (H1 & H2). destruct (Nat.eq_dec i s) as [->|D].
      * rewrite Nat.sub_diag in H2. injection H2 as <-. auto.
      * right. split; [lia|]. replace (i - s) with (S (i - S s)) in H2 by lia. exact H2.
Qed.

(** ** Owners *)
Section Own.
Variable n : nat.
Variable w : bool.
Definition counts (g : gvar) : bool := negb w || g_writing g.

Lemma claim_length : forall pc own g, length (claim w n pc own g) = length own.
Proof. intros. unfold claim. destruct (_ && _); auto. apply upd_length. Qed.
Lemma claim_fold_length : forall pc vs own, length (fold_left (claim w n pc) vs own) = length own.
Proof. induction vs as [|g vs IH]; intros own; cbn; auto. rewrite IH. apply claim_length. Qed.

(** One process claims: what was owned stays; the rest goes to it if it has it. *)
Lemma claim_fold : forall pc vs own v, v < length own -> pc <> n ->
  nth v (fold_left (claim w n pc) vs own) n =
    if negb (nth v own n =? n) then nth v own n
    else if existsb (fun g => counts g && (g_vbl g =? v)) vs then pc else n.
Proof.
  induction vs as [|g vs IH]; intros own v L P; cbn [fold_left existsb].
  - destruct (nth v own n =? n) eqn:E; cbn; auto. apply Nat.eqb_eq in E. auto.
  - rewrite IH by (rewrite ?claim_length; auto). unfold claim. fold (counts g).
    destruct (counts g) eqn:C; cbn [andb]; [|reflexivity].
    destruct (Nat.eq_dec (g_vbl g) v) as [->|D].
    + rewrite Nat.eqb_refl. cbn [orb]. destruct (nth v own n =? n) eqn:E; cbn [negb].
      * rewrite nth_upd_same by auto. destruct (Nat.eqb_spec pc n); [contradiction|]. reflexivity.
      * rewrite E. cbn [negb]. reflexivity.
    + destruct (Nat.eqb_spec (g_vbl g) v); [contradiction|]. cbn [orb].
      destruct (nth (g_vbl g) own n =? n); [|reflexivity]. rewrite nth_upd_other by auto. reflexivity.
Qed.

Definition claim_list (l : list (nat * list gvar)) (own : list nat) : list nat :=
  fold_left (fun own iv => fold_left (claim w n (fst iv)) (snd iv) own) l own.
Lemma claim_list_length : forall l own, length (claim_list l own) = length own.
Proof. induction l as [|iv l IH]; intros own; cbn; auto. unfold claim_list in IH. rewrite IH. apply claim_fold_length. Qed.
Lemma claim_list_keeps : forall l own v, v < length own -> (forall iv, In iv l -> fst iv <> n) ->
  nth v own n <> n -> nth v (claim_list l own) n = nth v own n.
Proof.
  induction l as [|iv l IH]; intros own v L P H; cbn; auto. unfold claim_list in IH.
  assert (E : nth v (fold_left (claim w n (fst iv)) (snd iv) own) n = nth v own n).
  { rewrite claim_fold by (auto; apply P; cbn; auto). destruct (Nat.eqb_spec (nth v own n) n); [contradiction|reflexivity]. }
  rewrite IH; [exact E|rewrite claim_fold_length; auto|intros; apply P; cbn; auto|rewrite E; auto].
Qed.
Lemma claim_list_new : forall l own v, v < length own -> (forall iv, In iv l -> fst iv <> n) -> nth v own n = n ->
  nth v (claim_list l own) n <> n ->
  exists iv g, In iv l /\ fst iv = nth v (claim_list l own) n /\ In g (snd iv) /\ counts g = true /\ g_vbl g = v.
Proof.
  induction l as [|iv l IH]; intros own v L P Z H; [cbn in H; contradiction|].
  change (claim_list (iv :: l) own) with (claim_list l (fold_left (claim w n (fst iv)) (snd iv) own)) in *.
  pose proof (claim_fold (fst iv) (snd iv) own v L (P iv (or_introl eq_refl))) as E. rewrite Z, Nat.eqb_refl in E. cbn [negb] in E.
  destruct (existsb _ (snd iv)) eqn:X.
  - assert (K : nth v (claim_list l (fold_left (claim w n (fst iv)) (snd iv) own)) n = fst iv).
    { rewrite claim_list_keeps; [exact E|rewrite claim_fold_length; auto|intros; apply P; cbn; auto|rewrite E; apply P; cbn; auto]. }
    rewrite K. apply existsb_exists in X. destruct X as (g & G1 & G2). apply andb_true_iff in G2. destruct G2 as (G2 & G3).
    apply Nat.eqb_eq in G3. exists iv, g. cbn. repeat split; auto.
  - destruct (IH (fold_left (claim w n (fst iv)) (snd iv) own) v) as (iv' & g & A1 & A2 & A3); auto.
    { rewrite claim_fold_length; auto. } { intros; apply P; cbn; auto. }
    exists iv', g. cbn. split; auto.
Qed.
Lemma claim_list_all : forall l own v iv g, v < length own -> (forall iv, In iv l -> fst iv <> n) ->
  In iv l -> In g (snd iv) -> counts g = true -> g_vbl g = v -> nth v (claim_list l own) n <> n.
Proof.
  induction l as [|jv l IH]; intros own v iv g L P Hiv Hg C E; [destruct Hiv|].
  change (claim_list (jv :: l) own) with (claim_list l (fold_left (claim w n (fst jv)) (snd jv) own)).
  pose proof (claim_fold (fst jv) (snd jv) own v L (P jv (or_introl eq_refl))) as F.
  destruct (Nat.eq_dec (nth v (fold_left (claim w n (fst jv)) (snd jv) own) n) n) as [Z|NZ].
  - destruct Hiv as [->|Hiv].
    + exfalso. rewrite F in Z. destruct (negb (nth v own n =? n)) eqn:B.
      * rewrite Z, Nat.eqb_refl in B. discriminate.
      * assert (X : existsb (fun g => counts g && (g_vbl g =? v)) (snd iv) = true).
        { apply existsb_exists. exists g. split; auto. rewrite C, E, Nat.eqb_refl. reflexivity. }
        rewrite X in Z. apply (P iv (or_introl eq_refl) Z).
    + apply (IH _ v iv g); auto; [rewrite claim_fold_length; auto|intros; apply P; cbn; auto].
  - rewrite claim_list_keeps; auto; [rewrite claim_fold_length; auto|intros; apply P; cbn; auto].
Qed.
End Own.

(** ** Channels *)
(** The variables sent to o, and whether there is a channel to o. *)
Definition sent_to (o : nat) (chs : list uchan) : list nat := flat_map (fun c => if u_pc c =? o then u_vbls c else []) chs.
Definition channel_to (o : nat) (chs : list uchan) : Prop := In o (map u_pc chs).

Lemma existsb_channel : forall o chs, existsb (fun c => u_pc c =? o) chs = true <-> channel_to o chs.
Proof.
  intros o chs. rewrite existsb_exists. unfold channel_to. rewrite in_map_iff. split.
  - intros (c & H1 & H2). apply Nat.eqb_eq in H2. eauto.
  - intros (c & H1 & H2). exists c. rewrite H1, Nat.eqb_refl. auto.
Qed.
Lemma ensure_channels : forall o chs o', channel_to o' (ensure o chs) <-> channel_to o' chs \/ o' = o.
Proof.
  intros o chs o'. unfold ensure. destruct (existsb _ chs) eqn:E.
  - apply existsb_channel in E. split; auto. intros [H| ->]; auto.
  - unfold channel_to. rewrite map_app, in_app_iff. cbn. intuition.
Qed.
Lemma NoDup_snoc : forall A (l : list A) x, NoDup l -> ~ In x l -> NoDup (l ++ [x]).
Proof.
  intros A l x H. induction H as [|y l Y H IH]; intros N; cbn; [constructor; auto; constructor|]. constructor.
  - rewrite in_app_iff. cbn. intros [A1|[A1|[]]]; auto. subst. apply N. cbn. auto.
  - apply IH. intro. apply N. cbn. auto.
Qed.
Lemma ensure_NoDup : forall o chs, NoDup (map u_pc chs) -> NoDup (map u_pc (ensure o chs)).
Proof.
  intros o chs H. unfold ensure. destruct (existsb _ chs) eqn:E; auto. rewrite map_app. cbn. apply NoDup_snoc; auto.
  intro X. apply (existsb_channel o chs) in X. congruence.
Qed.
Lemma ensure_sent : forall o chs o', sent_to o' (ensure o chs) = sent_to o' chs.
Proof.
  intros o chs o'. unfold ensure. destruct (existsb _ chs) eqn:E; auto. unfold sent_to. rewrite flat_map_app. cbn.
  destruct (o =? o'); cbn; rewrite ?app_nil_r; reflexivity.
Qed.
Lemma push_pcs : forall pc v chs, map u_pc (push_vbl pc v chs) = map u_pc chs.
Proof. intros pc v chs. unfold push_vbl. rewrite map_map. apply map_ext. intros c. destruct (u_pc c =? pc); reflexivity. Qed.
Lemma push_sent : forall pc v chs o, NoDup (map u_pc chs) -> channel_to pc chs ->
  sent_to o (push_vbl pc v chs) = sent_to o chs ++ (if o =? pc then [v] else []).
Proof.
  intros pc v chs o. unfold channel_to. induction chs as [|c chs IH]; intros ND H; [destruct H|]. cbn [map] in *.
  inversion ND as [|x l N1 N2]; subst. unfold sent_to in *. cbn [flat_map push_vbl map].
  destruct (Nat.eqb_spec (u_pc c) pc) as [E|E].
  - cbn [u_pc u_vbls]. assert (R : map (fun c0 => if u_pc c0 =? pc then mkUchan (u_pc c0) (u_vbls c0 ++ [v]) else c0) chs = chs).
    { rewrite <- (map_id chs) at 2. apply map_ext_in. intros c' Hc'. destruct (Nat.eqb_spec (u_pc c') pc); auto.
      exfalso. apply N1. rewrite E. apply in_map_iff. eauto. }
    rewrite R. destruct (Nat.eqb_spec (u_pc c) o) as [D|D].
    + assert (o = pc) by congruence. clear D. subst o. rewrite ?E, Nat.eqb_refl.
      assert (Z : flat_map (fun c0 => if u_pc c0 =? pc then u_vbls c0 else []) chs = []).
      { clear -N1 E. rewrite E in N1. induction chs as [|c' chs IH]; cbn; auto. cbn in N1.
        destruct (Nat.eqb_spec (u_pc c') pc); [tauto|]. cbn. apply IH. tauto. }
      rewrite Z, !app_nil_r. reflexivity.
    + destruct (Nat.eqb_spec o pc); [congruence|]. rewrite app_nil_r. reflexivity.
  - destruct H as [H|H]; [congruence|]. fold (push_vbl pc v chs).
    specialize (IH N2 H). destruct (u_pc c =? o); rewrite IH; [rewrite app_assoc|]; reflexivity.
Qed.

(** ** Networks *)
Section Net.
Variable O : network.
Notation vss := (tables O).
Notation n := (length (tables O)).
Notation own := (owning O).
Definition vars (i : nat) : list gvar := nth i vss [].
Definition owner (v : nat) : nat := nth v own n.

(** Variables have numbers below the number of variables. *)
Hypothesis RANGE : forall i g, In g (vars i) -> g_vbl g < length (vdoms O).

Lemma indexed_in : forall i vs, In (i, vs) (combine (seq 0 n) vss) <-> i < n /\ vs = vars i.
Proof.
  intros i vs. rewrite in_indexed. rewrite Nat.sub_0_r. unfold vars. split.
  - intros (_ & H). split; [apply nth_error_Some; congruence|]. symmetry. apply nth_error_nth. auto.
  - intros (H & ->). split; [lia|]. apply nth_error_nth'. auto.
Qed.
Lemma index_ne : forall iv, In iv (combine (seq 0 n) vss) -> fst iv <> n.
Proof. intros [i vs] H. apply indexed_in in H. cbn. lia. Qed.
Lemma var_index : forall i g, In g (vars i) -> i < n.
Proof. intros i g H. unfold vars in H. destruct (le_lt_dec n i) as [L|L]; auto. rewrite nth_overflow in H by auto. destruct H. Qed.

Notation own1 := (claims true n vss (repeat n (length (vdoms O)))).
Lemma own1_eq : own1 = claim_list n true (combine (seq 0 n) vss) (repeat n (length (vdoms O))).
Proof. reflexivity. Qed.
Lemma own_eq : own = claim_list n false (combine (seq 0 n) vss) own1.
Proof. reflexivity. Qed.
Lemma own1_length : length own1 = length (vdoms O).
Proof. rewrite own1_eq, claim_list_length, repeat_length. reflexivity. Qed.
Lemma nth_rep : forall v m, nth v (repeat n m) n = n.
Proof. intros v m. revert v. induction m; intros [|v]; cbn; auto. Qed.

Lemma own1_writer : forall v, v < length (vdoms O) -> nth v own1 n <> n ->
  exists g, In g (vars (nth v own1 n)) /\ g_vbl g = v /\ g_writing g = true.
Proof.
  intros v L H. rewrite own1_eq in H |- *.
  destruct (claim_list_new n true (combine (seq 0 n) vss) (repeat n (length (vdoms O))) v) as (iv & g & A1 & A2 & A3 & A4 & A5); auto.
  { rewrite repeat_length. auto. } { intros; apply index_ne; auto. } { apply nth_rep. }
  exists g. destruct iv as [i vs]. apply indexed_in in A1. destruct A1 as (A1 & ->). cbn [fst snd] in *. rewrite <- A2. auto.
Qed.
Lemma own1_some : forall i g, In g (vars i) -> g_writing g = true -> nth (g_vbl g) own1 n <> n.
Proof.
  intros i g H W. rewrite own1_eq. apply (claim_list_all n true _ _ _ (i, vars i) g); auto.
  - rewrite repeat_length. eauto.
  - intros; apply index_ne; auto.
  - apply indexed_in. split; auto. eapply var_index; eauto.
Qed.

Lemma owner_of_var : forall i g, In g (vars i) -> owner (g_vbl g) < n /\ exists g', In g' (vars (owner (g_vbl g))) /\ g_vbl g' = g_vbl g.
Proof.
  intros i g H. pose proof (RANGE i g H) as L. unfold owner.
  assert (NE : nth (g_vbl g) own n <> n).
  { rewrite own_eq. apply (claim_list_all n false _ _ _ (i, vars i) g); auto; [rewrite own1_length; auto|intros; apply index_ne; auto|].
    apply indexed_in. split; auto. eapply var_index; eauto. }
  assert (X : exists g', In g' (vars (nth (g_vbl g) own n)) /\ g_vbl g' = g_vbl g).
  { destruct (Nat.eq_dec (nth (g_vbl g) own1 n) n) as [Z|NZ].
    - rewrite own_eq in NE |- *.
      destruct (claim_list_new n false (combine (seq 0 n) vss) own1 (g_vbl g)) as (iv & g' & A1 & A2 & A3 & A4 & A5); auto.
      { rewrite own1_length; auto. } { intros; apply index_ne; auto. }
      destruct iv as [j vs]. apply indexed_in in A1. destruct A1 as (A1 & ->). cbn [fst snd] in *. rewrite <- A2. eauto.
    - rewrite own_eq. rewrite (claim_list_keeps n false); auto; [|rewrite own1_length; auto|intros; apply index_ne; auto].
      destruct (own1_writer (g_vbl g) L NZ) as (g' & B1 & B2 & _). eauto. }
  split; auto. destruct X as (g' & X & _). eapply var_index; eauto.
Qed.
(** Somebody writes it: then its owner does. *)
Lemma owner_writes : forall i g, In g (vars i) -> g_writing g = true ->
  exists g', In g' (vars (owner (g_vbl g))) /\ g_vbl g' = g_vbl g /\ g_writing g' = true.
Proof.
  intros i g H W. pose proof (RANGE i g H) as L. pose proof (own1_some i g H W) as NZ. unfold owner.
  rewrite own_eq. rewrite (claim_list_keeps n false); auto; [|rewrite own1_length; auto|intros; apply index_ne; auto].
  apply own1_writer; auto.
Qed.

(** ** The tables of channels *)
Notation ivs := (combine (seq 0 n) vss).
Definition chans0 : list (list uchan) := map (fun iv => chans_to own n (fst iv) (snd iv)) ivs.
Lemma chans0_length : length chans0 = n.
Proof. unfold chans0. rewrite map_length, combine_length, seq_length. lia. Qed.
Lemma chans0_nth : forall i, i < n -> nth i chans0 [] = chans_to own n i (vars i).
Proof.
  intros i H. unfold chans0. rewrite nth_indep with (d' := (fun iv => chans_to own n (fst iv) (snd iv)) (0, [])) by
    (rewrite map_length, combine_length, seq_length; lia).
  rewrite (map_nth (fun iv => chans_to own n (fst iv) (snd iv))). rewrite combine_nth by (rewrite seq_length; auto).
  rewrite seq_nth by auto. reflexivity.
Qed.
Lemma chans_to_spec : forall i vs chs,
  NoDup (map u_pc chs) -> (forall c, In c chs -> u_vbls c = []) ->
  let r := fold_left (fun chs v => let o := nth (g_vbl v) own n in if o =? i then chs else ensure o chs) vs chs in
  NoDup (map u_pc r) /\ (forall c, In c r -> u_vbls c = []) /\
  (forall o, channel_to o r <-> channel_to o chs \/ (o <> i /\ exists g, In g vs /\ owner (g_vbl g) = o)).
Proof.
  intros i. induction vs as [|g vs IH]; intros chs ND E; cbn [fold_left].
  - split; [|split]; auto. intros o. split; auto. intros [H|(_ & g & [] & _)]; auto.
  - fold (owner (g_vbl g)). destruct (Nat.eqb_spec (owner (g_vbl g)) i) as [X|X].
    + destruct (IH chs ND E) as (A1 & A2 & A3). split; [|split]; auto. intros o. rewrite (A3 o). split.
      * intros [H|(H1 & g' & H2 & H3)]; [auto|right]. split; auto. exists g'. cbn. auto.
      * intros [H|(H1 & g' & [<-|H2] & H3)]; [auto|congruence|right]. eauto.
    + destruct (IH (ensure (owner (g_vbl g)) chs)) as (A1 & A2 & A3).
      { apply ensure_NoDup; auto. }
      { intros c Hc. unfold ensure in Hc. destruct (existsb _ chs); auto. apply in_app_iff in Hc. destruct Hc as [Hc|[<-|[]]]; auto. }
      split; [|split]; auto. intros o. rewrite (A3 o), ensure_channels. split.
      * intros [[H| ->]|(H1 & g' & H2 & H3)]; [auto| |]; right; split; auto; [exists g|exists g']; cbn; auto.
      * intros [H|(H1 & g' & [<-|H2] & H3)]; auto. right. eauto.
Qed.

Definition step2 (pc : nat) := chan_from own n pc.
(** What the second loop does to the channels of process i. *)
Lemma chan_from_spec : forall pc g tbl, length tbl = n -> owner (g_vbl g) < n ->
  (forall i, i < n -> NoDup (map u_pc (nth i tbl []))) ->
  let t' := chan_from own n pc tbl g in
  length t' = n /\ (forall i, i < n -> NoDup (map u_pc (nth i t' []))) /\
  (forall i o, i < n -> sent_to o (nth i t' []) = sent_to o (nth i tbl []) ++
     (if (i =? owner (g_vbl g)) && (o =? pc) && negb (i =? pc) then [g_vbl g] else [])) /\
  (forall i o, i < n -> (channel_to o (nth i t' []) <-> channel_to o (nth i tbl []) \/ (i = owner (g_vbl g) /\ o = pc /\ i <> pc))).
Proof.
  intros pc g tbl L W ND. unfold chan_from. fold (owner (g_vbl g)). cbv zeta.
  destruct (Nat.eqb_spec (owner (g_vbl g)) pc) as [E|E].
  - split; [auto|]. split; [auto|]. split.
    + intros i o Hi. destruct (Nat.eqb_spec i (owner (g_vbl g))) as [->|D]; cbn; rewrite ?app_nil_r; auto.
      rewrite E, Nat.eqb_refl. destruct (o =? pc); cbn; rewrite app_nil_r; reflexivity.
    + intros i o Hi. split; auto. intros [H|(-> & -> & H)]; [auto|]. congruence.
  - assert (NE : NoDup (map u_pc (ensure pc (nth (owner (g_vbl g)) tbl [])))) by (apply ensure_NoDup; auto).
    split; [rewrite upd_length; auto|]. split; [|split].
    + intros i Hi. destruct (Nat.eq_dec i (owner (g_vbl g))) as [->|D].
      * rewrite nth_upd_same by lia. rewrite push_pcs. auto.
      * rewrite nth_upd_other by auto. auto.
    + intros i o Hi. destruct (Nat.eqb_spec i (owner (g_vbl g))) as [->|D]; cbn [andb].
      * rewrite nth_upd_same by lia. rewrite push_sent, ensure_sent; auto; [|apply ensure_channels; auto].
        destruct (Nat.eqb_spec (owner (g_vbl g)) pc); [contradiction|]. cbn [negb]. rewrite andb_true_r. reflexivity.
      * rewrite nth_upd_other by auto. rewrite app_nil_r. reflexivity.
    + intros i o Hi. destruct (Nat.eq_dec i (owner (g_vbl g))) as [->|D].
      * rewrite nth_upd_same by lia. unfold channel_to. rewrite push_pcs. fold (channel_to o (ensure pc (nth (owner (g_vbl g)) tbl []))).
        rewrite ensure_channels. unfold channel_to. intuition.
      * rewrite nth_upd_other by auto. intuition.
Qed.

(** The pairs (reader, variable) in the order in which they are handled. *)
Definition pairs (l : list (nat * list gvar)) : list (nat * gvar) := flat_map (fun iv => map (pair (fst iv)) (snd iv)) l.
Lemma fold_pairs : forall l tbl,
  fold_left (fun tbl iv => fold_left (chan_from own n (fst iv)) (snd iv) tbl) l tbl
  = fold_left (fun tbl ig => chan_from own n (fst ig) tbl (snd ig)) (pairs l) tbl.
Proof.
  induction l as [|iv l IH]; intros tbl; cbn; auto. rewrite fold_left_app. rewrite <- IH. f_equal.
  generalize tbl. induction (snd iv) as [|g vs IH2]; intros t; cbn; auto.
Qed.
Definition goes (i o : nat) (ig : nat * gvar) : bool := (i =? owner (g_vbl (snd ig))) && (o =? fst ig) && negb (i =? fst ig).
Lemma fold_chans : forall l tbl, (forall ig, In ig l -> owner (g_vbl (snd ig)) < n) -> length tbl = n ->
  (forall i, i < n -> NoDup (map u_pc (nth i tbl []))) ->
  let t' := fold_left (fun tbl ig => chan_from own n (fst ig) tbl (snd ig)) l tbl in
  length t' = n /\ (forall i, i < n -> NoDup (map u_pc (nth i t' []))) /\
  (forall i o, i < n -> sent_to o (nth i t' []) = sent_to o (nth i tbl []) ++ map (fun ig => g_vbl (snd ig)) (filter (goes i o) l)) /\
  (forall i o, i < n -> (channel_to o (nth i t' []) <-> channel_to o (nth i tbl []) \/ exists ig, In ig l /\ goes i o ig = true)).
Proof.
  induction l as [|ig l IH]; intros tbl W L ND; cbn [fold_left].
  - split; auto. split; auto. split.
    + intros. cbn. rewrite app_nil_r. reflexivity.
    + intros i o Hi. split; auto. intros [H|(x & [] & _)]; auto.
  - destruct (chan_from_spec (fst ig) (snd ig) tbl L (W ig (or_introl eq_refl)) ND) as (A1 & A2 & A3 & A4).
    destruct (IH (chan_from own n (fst ig) tbl (snd ig)) (fun x H => W x (or_intror H)) A1 A2) as (B1 & B2 & B3 & B4).
    split; auto. split; auto. split.
    + intros i o Hi. rewrite B3, A3 by auto. rewrite <- app_assoc. f_equal. cbn [filter]. unfold goes at 2. destruct (_ && _ && _); reflexivity.
    + intros i o Hi. rewrite B4, A4 by auto.
      assert (G : goes i o ig = true <-> i = owner (g_vbl (snd ig)) /\ o = fst ig /\ i <> fst ig).
      { unfold goes. rewrite !andb_true_iff, negb_true_iff, !Nat.eqb_eq, Nat.eqb_neq. tauto. }
      split.
      * intros [[H|H]|(x & H1 & H2)]; auto; right; [exists ig|exists x]; cbn; tauto.
      * intros [H|(x & [<-|H1] & H2)]; auto; [left; right; apply G; auto|right; eauto].
Qed.

Notation chans := (chans_of O).
Lemma chans_eq : chans = fold_left (fun tbl ig => chan_from own n (fst ig) tbl (snd ig)) (pairs ivs) chans0.
Proof. unfold chans_of. cbv zeta. apply fold_pairs. Qed.

Lemma filter_map_pair : forall (f : nat * gvar -> bool) i vs, filter f (map (pair i) vs) = map (pair i) (filter (fun g => f (i, g)) vs).
Proof. intros f i. induction vs as [|g vs IH]; cbn; auto. destruct (f (i, g)); cbn; rewrite IH; auto. Qed.
Lemma filter_flat_map : forall A B (f : B -> bool) (h : A -> list B) l, filter f (flat_map h l) = flat_map (fun x => filter f (h x)) l.
Proof. intros. induction l as [|x l IH]; cbn; auto. rewrite filter_app, IH. reflexivity. Qed.

(** The pairs of one reader. *)
Lemma pairs_of : forall (f : nat * gvar -> bool) o (l : list (list gvar)) s, (forall i g, f (i, g) = true -> i = o) -> s <= o < s + length l ->
  filter f (pairs (combine (seq s (length l)) l)) = map (pair o) (filter (fun g => f (o, g)) (nth (o - s) l [])).
Proof.
  intros f o. induction l as [|vs l IH]; intros s F H; cbn [length] in *; [lia|]. cbn [seq combine]. unfold pairs in *. cbn [flat_map fst snd].
  rewrite filter_app, filter_map_pair. destruct (Nat.eq_dec s o) as [->|D].
  - rewrite Nat.sub_diag. cbn [nth]. rewrite <- app_nil_r. f_equal.
    rewrite filter_flat_map. assert (G : forall l', (forall iv, In iv l' -> fst iv <> o) -> flat_map (fun x => filter f (map (pair (fst x)) (snd x))) l' = []).
    { induction l' as [|iv l' IH']; intros X; cbn; auto. rewrite IH' by (intros; apply X; cbn; auto). rewrite app_nil_r, filter_map_pair.
      assert (Z : filter (fun g => f (fst iv, g)) (snd iv) = []).
      { assert (Y : forall g, f (fst iv, g) = false).
        { intros g. destruct (f (fst iv, g)) eqn:E; auto. apply F in E. exfalso. apply (X iv (or_introl eq_refl) E). }
        induction (snd iv) as [|g vs' IHv]; cbn; auto. rewrite Y. auto. }
      rewrite Z. reflexivity. }
    apply G. intros [j w] Hj. apply in_indexed in Hj. cbn. lia.
  - assert (Z : filter (fun g => f (s, g)) vs = []).
    { assert (Y : forall g, f (s, g) = false) by (intros g; destruct (f (s, g)) eqn:E; auto; apply F in E; congruence).
      induction vs as [|g vs' IHv]; cbn; auto. rewrite Y. auto. }
    rewrite Z. cbn [map app]. rewrite IH by (auto; lia). replace (o - s) with (S (o - S s)) by lia. reflexivity.
Qed.

Lemma pairs_in : forall o g, In (o, g) (pairs ivs) <-> o < n /\ In g (vars o).
Proof.
  intros o g. unfold pairs. rewrite in_flat_map. split.
  - intros ([i vs] & H1 & H2). apply indexed_in in H1. destruct H1 as (H1 & ->). apply in_map_iff in H2.
    destruct H2 as (g' & E & H2). injection E as <- <-. auto.
  - intros (H1 & H2). exists (o, vars o). split; [apply indexed_in; auto|]. apply in_map. auto.
Qed.

(** The channels of process i: one to every other process with which it shares a
    variable one of the two owns; and what it sends on it. *)
Theorem chans_spec :
  length chans = n /\
  (forall i, i < n -> NoDup (map u_pc (nth i chans []))) /\
  (forall i o, i < n -> sent_to o (nth i chans []) =
     if i =? o then [] else map g_vbl (filter (fun g => owner (g_vbl g) =? i) (vars o))) /\
  (forall i o, i < n -> (channel_to o (nth i chans []) <-> i <> o /\
     ((exists g, In g (vars i) /\ owner (g_vbl g) = o) \/ (exists g, In g (vars o) /\ owner (g_vbl g) = i)))).
Proof.
  assert (W : forall ig, In ig (pairs ivs) -> owner (g_vbl (snd ig)) < n).
  { intros [o g] H. apply pairs_in in H. apply (owner_of_var o). apply H. }
  assert (I : forall i, i < n -> NoDup (map u_pc (nth i chans0 [])) /\ (forall c, In c (nth i chans0 []) -> u_vbls c = []) /\
    forall o, channel_to o (nth i chans0 []) <-> o <> i /\ exists g, In g (vars i) /\ owner (g_vbl g) = o).
  { intros i Hi. rewrite chans0_nth by auto. destruct (chans_to_spec i (vars i) []) as (A1 & A2 & A3); [constructor|intros c []|].
    split; [exact A1|]. split; [exact A2|]. intros o. unfold chans_to. rewrite A3. unfold channel_to. cbn. tauto. }
  destruct (fold_chans (pairs ivs) chans0 W chans0_length (fun i Hi => proj1 (I i Hi))) as (B1 & B2 & B3 & B4). rewrite chans_eq.
  split; auto. split; auto. split.
  - intros i o Hi. rewrite B3 by auto. assert (Z : sent_to o (nth i chans0 []) = []).
    { destruct (I i Hi) as (_ & E & _). unfold sent_to. induction (nth i chans0 []) as [|c chs IH]; cbn; auto.
      rewrite E by (cbn; auto). rewrite IH by (intros; apply E; cbn; auto). destruct (_ =? _); reflexivity. }
    rewrite Z. cbn [app]. destruct (le_lt_dec n o) as [L|L].
    + (* no such process *)
      assert (E : filter (goes i o) (pairs ivs) = []).
      { assert (Y : forall ig, In ig (pairs ivs) -> goes i o ig = false).
        { intros [j g] H. apply pairs_in in H. unfold goes. cbn. destruct (Nat.eqb_spec o j); [lia|]. rewrite andb_false_r. reflexivity. }
        revert Y. generalize (pairs ivs). induction l as [|x l IH]; intros Y; cbn; auto. rewrite Y by (cbn; auto). apply IH. intros; apply Y; cbn; auto. }
      rewrite E. destruct (i =? o); auto. unfold vars. rewrite nth_overflow by auto. reflexivity.
    + rewrite (pairs_of (goes i o) o vss 0); [|intros j g H; unfold goes in H; cbn in H; rewrite !andb_true_iff in H; destruct H as ((_ & H) & _); apply Nat.eqb_eq in H; auto|cbn; lia].
      rewrite Nat.sub_0_r, map_map. cbn [snd]. fold (vars o). destruct (Nat.eqb_spec i o) as [->|D].
      * assert (Y : filter (fun g => goes o o (o, g)) (vars o) = []).
        { induction (vars o) as [|g vs IH]; cbn [filter]; auto.
          assert (F : goes o o (o, g) = false) by (unfold goes; cbn; rewrite Nat.eqb_refl, andb_false_r; reflexivity). rewrite F. apply IH. }
        rewrite Y. reflexivity.
      * f_equal. apply filter_ext. intros g. unfold goes. cbn. rewrite Nat.eqb_refl, (Nat.eqb_sym i (owner _)).
        destruct (Nat.eqb_spec i o); [contradiction|]. cbn. rewrite !andb_true_r. reflexivity.
  - intros i o Hi. rewrite B4 by auto. destruct (I i Hi) as (_ & _ & E). rewrite E. split.
    + intros [(H1 & H2)|([j g] & H1 & H2)].
      * split; auto.
      * unfold goes in H2. cbn in H2. rewrite !andb_true_iff, negb_true_iff, !Nat.eqb_eq, Nat.eqb_neq in H2. apply pairs_in in H1.
        destruct H2 as ((H2 & H3) & H4). subst j. split; auto. right. exists g. split; [apply H1|auto].
    + intros (D & [(g & H1 & H2)|(g & H1 & H2)]); [left; split; eauto|right].
      exists (o, g). split; [apply pairs_in; split; auto; eapply var_index; eauto|].
      unfold goes. cbn. rewrite !andb_true_iff, negb_true_iff, !Nat.eqb_eq, Nat.eqb_neq. auto.
Qed.

(** Channels go both ways. *)
Lemma channel_sym : forall i o, i < n -> channel_to o (nth i chans []) -> o < n /\ channel_to i (nth o chans []).
Proof.
  intros i o Hi H. destruct chans_spec as (_ & _ & _ & C). apply C in H; auto. destruct H as (D & H).
  assert (Ho : o < n).
  { destruct H as [(g & H1 & H2)|(g & H1 & H2)]; [|eapply var_index; eauto]. subst o. apply (owner_of_var i g H1). }
  split; auto. apply C; auto. split; auto. tauto.
Qed.
End Net.
