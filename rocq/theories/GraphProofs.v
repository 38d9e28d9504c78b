(** The picture of who reads from whom: proofs. *)
From Coq Require Import List Arith Bool Lia.
From Verif Require Import FinLib Radix FmlaModel FmlaSpec ActModel ActSpec ActProofs NetModel NetSpec NetProofs GraphModel GraphSpec.
Import ListNotations.

Section Proofs.
Variable N : network.
Hypothesis HN : net_ok N.
Notation n := (length (pcs N)).

Lemma pair_in_iff : forall x l, pair_in x l = true <-> In x l.
Proof.
  intros [a b] l. unfold pair_in. rewrite existsb_exists. cbn [fst snd]. split.
  - intros ([c d] & I & E). cbn [fst snd] in E. apply andb_true_iff in E. destruct E as [E1 E2]. apply Nat.eqb_eq in E1, E2. subst. auto.
  - intros I. exists (a, b). cbn [fst snd]. rewrite !Nat.eqb_refl. auto.
Qed.
Lemma members_iff : forall l k i, In i (members N l k) <-> i < n /\ In (k, i) l.
Proof. intros l k i. unfold members. rewrite filter_In, in_seq, pair_in_iff. split; intros [A B]; split; auto; lia. Qed.
Lemma numbered : forall (A : Type) (l : list A) s i p, In (i, p) (combine (seq s (length l)) l) <-> s <= i /\ nth_error l (i - s) = Some p.
Proof.
  induction l as [|a l IH]; intros s i p; cbn [length seq combine].
  - split; [intros []|]. intros [_ H]. destruct (i - s); discriminate.
  - cbn [In]. rewrite IH. split.
    + intros [H|[H1 H2]]; [injection H as <- <-; rewrite Nat.sub_diag; auto|]. split; [lia|]. replace (i - s) with (S (i - S s)) by lia. exact H2.
    + intros [H1 H2]. destruct (Nat.eq_dec i s) as [->|NE]; [left; rewrite Nat.sub_diag in H2; injection H2 as <-; auto|]. right. split; [lia|].
      replace (i - s) with (S (i - S s)) in H2 by lia. exact H2.
Qed.
Lemma numbered0 : forall i p, In (i, p) (combine (seq 0 n) (pcs N)) <-> nth_error (pcs N) i = Some p.
Proof. intros i p. rewrite numbered, Nat.sub_0_r. split; [tauto|]. intros H. split; [lia|auto]. Qed.
Lemma owned : forall p x, (exists j, j < nw (kind_of N p) /\ wvbl N p j = x) <-> own N p x.
Proof.
  intros p x. unfold own, wvbl, nw. split.
  - intros (j & J & <-). assert (I : In (nth j (wmap (kind_of N p)) 0) (wmap (kind_of N p))) by (apply nth_In; auto). unfold wmap in I at 2. apply filter_In in I.
    destruct I as [I W]. apply in_seq in I. exists (nth j (wmap (kind_of N p)) 0). split; [apply I|]. split; [apply writable_ck, W|reflexivity].
  - intros (i & I & W & <-). assert (M : In i (wmap (kind_of N p))) by (apply filter_In; split; [apply in_seq; split; [lia|exact I]|apply writable_ck, W]).
    apply (In_nth _ _ 0) in M. destruct M as (j & J & E). exists j. split; [auto|]. unfold rvbl, vbl_at. rewrite E. reflexivity.
Qed.
Lemma own_map_iff : forall x i, In (x, i) (own_map N) <-> exists p, nth_error (pcs N) i = Some p /\ own N p x.
Proof.
  intros x i. unfold own_map. rewrite in_flat_map. split.
  - intros ([k p] & I & M). apply numbered0 in I. cbn [fst snd] in M. apply in_map_iff in M. destruct M as (j & E & J). injection E as E <-. apply in_seq in J.
    exists p. split; auto. apply owned. exists j. split; [lia|auto].
  - intros (p & P & O). apply owned in O. destruct O as (j & J & E). exists (i, p). split; [apply numbered0; auto|]. apply in_map_iff. exists j. cbn [fst snd]. rewrite E. split; auto. apply in_seq. lia.
Qed.
Lemma mentions_iff : forall p x, In p (pcs N) -> (In x (p_vbls p) <-> mentions N p x).
Proof.
  intros p x P. unfold mentions. rewrite <- (no_vbls _ HN p P). split.
  - intros I. apply (In_nth _ _ 0) in I. destruct I as (j & J & E). exists j. auto.
  - intros (j & J & <-). apply nth_In; auto.
Qed.
Lemma read_map_iff : forall i j, In (i, j) (pc_read_map N) <-> informs N i j.
Proof.
  intros i j. unfold pc_read_map, informs. rewrite in_flat_map. split.
  - intros ([k q] & I & M). apply numbered0 in I. cbn [fst snd] in M. apply in_flat_map in M. destruct M as (v & V & M). apply in_flat_map in M. destruct M as (h & H & M).
    destruct (Nat.eqb_spec h k) as [E|NE]; [destruct M|]. destruct M as [M|[]]. injection M as <- <-. split; auto. apply members_iff in H. destruct H as [_ H].
    apply own_map_iff in H. destruct H as (p & P & O). exists p, q, v. split; auto. split; auto. split; auto. apply mentions_iff; auto. eapply nth_error_In; eauto.
  - intros (NE & p & q & x & P & Q & O & M). exists (j, q). split; [apply numbered0; auto|]. cbn [fst snd]. apply in_flat_map. exists x.
    split; [apply mentions_iff; auto; eapply nth_error_In; eauto|]. apply in_flat_map. exists i. split.
    + apply members_iff. split; [apply nth_error_Some; congruence|]. apply own_map_iff. eauto.
    + destruct (Nat.eqb_spec i j); [contradiction|]. left. reflexivity.
Qed.
Lemma informs_less : forall i j, informs N i j -> i < n /\ j < n.
Proof. intros i j (_ & p & q & x & P & Q & _). split; apply nth_error_Some; congruence. Qed.
Lemma edges_iff : forall e, In e (edges N) <-> match e with Arc i j => informs N i j /\ ~ informs N j i | Both i j => i < j /\ informs N i j /\ informs N j i end.
Proof.
  intros e. unfold edges. rewrite in_flat_map. split.
  - intros (i & I & M). apply in_flat_map in M. destruct M as (j & J & M). apply members_iff in J. destruct J as [_ J]. apply read_map_iff in J.
    destruct (pair_in (j, i) (pc_read_map N)) eqn:E.
    + apply pair_in_iff, read_map_iff in E. destruct (Nat.ltb_spec i j); [destruct M as [<-|[]]; auto|destruct M].
    + destruct M as [<-|[]]. split; auto. intros X. apply read_map_iff, pair_in_iff in X. congruence.
  - intros H. assert (L : forall i j, informs N i j -> In i (seq 0 n) /\ In j (members N (pc_read_map N) i)).
    { intros i j X. destruct (informs_less _ _ X). split; [apply in_seq; lia|]. apply members_iff. split; auto. apply read_map_iff; auto. }
    destruct e as [i j|i j].
    + destruct H as [H1 H2]. exists i. split; [apply (L i j H1)|]. apply in_flat_map. exists j. split; [apply (L i j H1)|].
      destruct (pair_in (j, i) (pc_read_map N)) eqn:E; [apply pair_in_iff, read_map_iff in E; contradiction|left; reflexivity].
    + destruct H as (LT & H1 & H2). exists i. split; [apply (L i j H1)|]. apply in_flat_map. exists j. split; [apply (L i j H1)|].
      assert (E : pair_in (j, i) (pc_read_map N) = true) by (apply pair_in_iff, read_map_iff; auto). rewrite E. destruct (Nat.ltb_spec i j); [left; reflexivity|lia].
Qed.
Lemma nodup_flat : forall (A B : Type) (f : A -> list B) (l : list A), NoDup l -> (forall a, In a l -> NoDup (f a)) ->
  (forall a b x, In a l -> In b l -> In x (f a) -> In x (f b) -> a = b) -> NoDup (flat_map f l).
Proof.
  intros A B f l ND. induction ND as [|a l NI ND IH]; intros F D; cbn [flat_map]; [constructor|].
  assert (G : forall l1 l2 : list B, NoDup l1 -> NoDup l2 -> (forall x, In x l1 -> ~ In x l2) -> NoDup (l1 ++ l2)).
  { induction l1 as [|y l1 IH1]; intros l2 N1 N2 X; auto. inversion N1; subst. cbn [app]. constructor; [rewrite in_app_iff; intros [Y|Y]; [auto|apply (X y); cbn; auto]|]. apply IH1; auto. intros z Z. apply X. right. auto. }
  apply G; [apply F; left; auto|apply IH|]; [intros b B0; apply F; right; auto|intros b c x B0 C; apply D; right; auto|].
  intros x X Y. apply in_flat_map in Y. destruct Y as (b & B0 & Y). assert (E : a = b) by (apply (D a b x); auto; [left; auto|right; auto]). subst b. contradiction.
Qed.
Lemma edges_nodup : NoDup (edges N).
Proof.
  unfold edges. apply nodup_flat; [apply seq_NoDup| |].
  - intros i I. apply nodup_flat.
    + unfold members. apply NoDup_filter, seq_NoDup.
    + intros j J. destruct (pair_in (j, i) (pc_read_map N)); [destruct (i <? j)|]; repeat constructor; auto.
    + intros j k x J K X Y. destruct (pair_in (j, i) (pc_read_map N)), (pair_in (k, i) (pc_read_map N)); try destruct (i <? j); try destruct (i <? k);
        repeat match goal with H : In x [_] |- _ => destruct H as [H|[]] | H : In x [] |- _ => destruct H end; congruence.
  - assert (S : forall i x, In x (flat_map (fun j => if pair_in (j, i) (pc_read_map N) then (if i <? j then [Both i j] else []) else [Arc i j]) (members N (pc_read_map N) i)) ->
      match x with Arc a _ | Both a _ => a = i end).
    { intros i x X. apply in_flat_map in X. destruct X as (j & _ & X). destruct (pair_in (j, i) (pc_read_map N)); [destruct (i <? j)|]; [destruct X as [<-|[]]; auto|destruct X|destruct X as [<-|[]]; auto]. }
    intros i k x _ _ X Y. apply S in X. apply S in Y. destruct x; congruence.
Qed.
End Proofs.
