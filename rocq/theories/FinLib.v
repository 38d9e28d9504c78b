(** Generic finite-combinatorics lemmas used by several proofs.
    Nothing here models code. *)
From Coq Require Import List Arith Lia Bool.
Import ListNotations.

Fixpoint upd {A} (l : list A) (i : nat) (x : A) : list A :=
  match l, i with
  | [], _ => []
  | _ :: l', 0 => x :: l'
  | y :: l', S i' => y :: upd l' i' x
  end.

Lemma upd_length : forall A (l : list A) i x, length (upd l i x) = length l.
Proof. induction l; destruct i; simpl; auto. Qed.

Lemma nth_upd : forall A (l : list A) i j x d,
  nth j (upd l i x) d = if (j =? i) && (i <? length l) then x else nth j l d.
Proof.
  induction l; intros i j x d; simpl.
  - destruct j; rewrite andb_false_r; reflexivity.
  - destruct i; destruct j; simpl; auto. rewrite IHl. reflexivity.
Qed.

Lemma nth_upd_same : forall A (l : list A) i x d,
  i < length l -> nth i (upd l i x) d = x.
Proof.
  intros. rewrite nth_upd, Nat.eqb_refl. apply Nat.ltb_lt in H. rewrite H. reflexivity.
Qed.

Lemma nth_upd_other : forall A (l : list A) i j x d,
  j <> i -> nth j (upd l i x) d = nth j l d.
Proof.
  intros. rewrite nth_upd. apply Nat.eqb_neq in H. rewrite H. reflexivity.
Qed.

Lemma upd_app_form : forall A (l : list A) i x, i < length l ->
  upd l i x = firstn i l ++ x :: skipn (S i) l.
Proof.
  induction l; intros i x H; simpl in *; [lia|].
  destruct i; simpl; auto. rewrite IHl by lia. reflexivity.
Qed.

Lemma Forall_upd : forall A (P : A -> Prop) l i x,
  Forall P l -> P x -> Forall P (upd l i x).
Proof.
  induction l; intros i x Hl Hx; destruct i; simpl; auto;
  inversion Hl; subst; constructor; auto.
Qed.

Lemma upd_same : forall A (l : list A) i d, upd l i (nth i l d) = l.
Proof. induction l; destruct i; simpl; intros; auto. f_equal; auto. Qed.

Lemma list_ext_nth : forall A (l1 l2 : list A) d,
  length l1 = length l2 ->
  (forall i, i < length l1 -> nth i l1 d = nth i l2 d) -> l1 = l2.
Proof. intros. eapply nth_ext; eauto. Qed.

(** Pigeonhole: a sequence in a finite list repeats. *)
Lemma NoDup_dec_dup : forall A (dec : forall x y : A, {x = y} + {x <> y}) (l : list A) d,
  ~ NoDup l -> exists i j, i < j < length l /\ nth i l d = nth j l d.
Proof.
  induction l as [|a l IH]; intros d H.
  - exfalso. apply H. constructor.
  - destruct (in_dec dec a l) as [Hin|Hout].
    + apply (In_nth _ _ d) in Hin. destruct Hin as (n & Hn & E).
      exists 0, (S n). simpl. split; [lia|auto].
    + destruct (IH d) as (i & j & Hij & E).
      * intro. apply H. constructor; auto.
      * exists (S i), (S j). simpl. split; [lia|auto].
Qed.

Lemma pigeonhole : forall A (dec : forall x y : A, {x = y} + {x <> y})
  (u : list A) (e : nat -> A),
  (forall k, k <= length u -> In (e k) u) ->
  exists i j, i < j <= length u /\ e i = e j.
Proof.
  intros A dec u e H.
  set (l := map e (seq 0 (S (length u)))).
  assert (Hl : length l = S (length u)) by (unfold l; rewrite map_length, seq_length; auto).
  destruct (NoDup_dec_dup A dec l (e 0)) as (i & j & Hij & E).
  - intro ND.
    assert (length l <= length u).
    { apply NoDup_incl_length; auto. intros x Hx. unfold l in Hx.
      apply in_map_iff in Hx. destruct Hx as (k & <- & Hk). apply in_seq in Hk. apply H. lia. }
    lia.
  - exists i, j. split; [lia|].
    unfold l in E. rewrite !map_nth in E.
    rewrite !seq_nth in E by lia. simpl in E. exact E.
Qed.

(** All lists of a given length over an alphabet. *)
Fixpoint lists_of {A} (u : list A) (n : nat) : list (list A) :=
  match n with
  | 0 => [[]]
  | S n' => flat_map (fun l => map (fun a => a :: l) u) (lists_of u n')
  end.

Lemma in_lists_of : forall A (u : list A) n l,
  In l (lists_of u n) <-> length l = n /\ Forall (fun x => In x u) l.
Proof.
  induction n; intros l; simpl.
  - split.
    + intros [<-|[]]. auto.
    + intros [H _]. destruct l; simpl in H; [auto|lia].
  - rewrite in_flat_map. split.
    + intros (l' & H1 & H2). apply in_map_iff in H2. destruct H2 as (a & <- & Ha).
      apply IHn in H1. destruct H1. simpl. split; auto.
    + intros [H1 H2]. destruct l as [|a l]; simpl in H1; [lia|].
      inversion H2; subst. exists l. split.
      * apply IHn. split; auto.
      * apply in_map_iff. eauto.
Qed.

Lemma Forall_lt_in_seq : forall M l,
  Forall (fun v => v < M) l <-> Forall (fun v => In v (seq 0 M)) l.
Proof.
  intros. rewrite !Forall_forall. split; intros H x Hx; specialize (H x Hx).
  - apply in_seq. lia.
  - apply in_seq in H. lia.
Qed.

Lemma last_cons : forall A (l : list A) a d, last (a :: l) d = last l a.
Proof.
  induction l; intros; [reflexivity|].
  change (last (a0 :: a :: l) d) with (last (a :: l) d). rewrite !IHl. reflexivity.
Qed.

Lemma last_nth : forall A (l : list A) d, last l d = nth (length l - 1) l d.
Proof.
  induction l; intros; auto. destruct l; auto.
  change (last (a :: a0 :: l) d) with (last (a0 :: l) d). rewrite IHl.
  simpl. rewrite Nat.sub_0_r. reflexivity.
Qed.

Lemma forallb_seq : forall (p : nat -> bool) a n,
  forallb p (seq a n) = true <-> (forall i, a <= i < a + n -> p i = true).
Proof.
  intros. rewrite forallb_forall. split; intros H i Hi; apply H.
  - apply in_seq; lia.
  - apply in_seq in Hi; lia.
Qed.

Lemma existsb_seq : forall (p : nat -> bool) a n,
  existsb p (seq a n) = true <-> (exists i, a <= i < a + n /\ p i = true).
Proof.
  intros. rewrite existsb_exists. split; intros (i & Hi & Hp); exists i; split; auto.
  - apply in_seq in Hi; lia.
  - apply in_seq; lia.
Qed.
