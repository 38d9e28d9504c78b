(** Rings in which nobody acts twice in a row: a cycle can be followed in sweeps. *)
From Coq Require Import List Arith Bool Lia.
Import ListNotations.

Section Count.
Variables f g : nat -> bool.
Variable l : list nat.
Hypothesis ND : NoDup l.
Variable i : nat.
Hypothesis IN : In i l.
Hypothesis FI : f i = true.
Hypothesis GI : g i = false.

Lemma lost : (forall k, In k l -> g k = true -> f k = true) -> length (filter g l) < length (filter f l).
Proof.
  intros H. change (length (i :: filter g l) <= length (filter f l)). apply NoDup_incl_length.
  - constructor; [|apply NoDup_filter; auto]. intros C. apply filter_In in C. destruct C; congruence.
  - intros k [<-|K]; apply filter_In; [auto|]. apply filter_In in K. destruct K; auto.
Qed.
Lemma exchanged : forall j, (forall k, In k l -> k <> j -> g k = true -> f k = true) -> length (filter g l) <= length (filter f l).
Proof.
  intros j H. set (h := fun k => g k && negb (k =? j)).
  assert (A : length (filter g l) <= length (j :: filter h l)).
  { apply NoDup_incl_length; [apply NoDup_filter; auto|]. intros k K. apply filter_In in K. destruct K as (K & G).
    destruct (Nat.eq_dec k j) as [->|NE]; [left; auto|right]. apply filter_In. split; auto. unfold h. rewrite G. cbn. apply negb_true_iff, Nat.eqb_neq. auto. }
  assert (B : length (i :: filter h l) <= length (filter f l)).
  { apply NoDup_incl_length.
    - constructor; [|apply NoDup_filter; auto]. intros C. apply filter_In in C. destruct C as (_ & C). unfold h in C. rewrite GI in C. discriminate.
    - intros k [<-|K]; apply filter_In; [auto|]. apply filter_In in K. destruct K as (K & G). unfold h in G. apply andb_true_iff in G.
      destruct G as (G & N). apply negb_true_iff, Nat.eqb_neq in N. auto. }
  cbn [length] in *. lia.
Qed.
End Count.

Section Ring.
Variable X : Type.
Variable n : nat.
Variable step : nat -> X -> X -> Prop.
Definition en (i : nat) (s : X) : Prop := exists t, step i s t.
Variable enb : nat -> X -> bool.
Hypothesis enb_en : forall i s, enb i s = true <-> en i s.
Definition bef (i : nat) : nat := match i with 0 => n - 1 | S j => j end.
Hypothesis bound : forall i s t, step i s t -> i < n.
Hypothesis quiet : forall i s t, step i s t -> ~ en i t.
Hypothesis apart : forall i j s t, step j s t -> i <> j -> bef i <> j -> (en i s <-> en i t).
Hypothesis swap : forall i j s t u, step j s t -> step i t u -> i <> j -> bef i <> j -> bef j <> i ->
  exists v, step i s v /\ step j v u.

Lemma en_dec : forall i s, en i s \/ ~ en i s.
Proof. intros i s. rewrite <- enb_en. destruct (enb i s); [left|right]; auto; discriminate. Qed.

Definition aft (i : nat) : nat := if S i =? n then 0 else S i.
Lemma bef_aft : forall i k, i < n -> k < n -> (bef k = i <-> k = aft i).
Proof.
  intros i k I K. unfold bef, aft. destruct (S i =? n) eqn:E; [apply Nat.eqb_eq in E|apply Nat.eqb_neq in E]; destruct k; lia.
Qed.
Lemma aft_bound : forall i, i < n -> aft i < n.
Proof. intros i I. unfold aft. destruct (S i =? n) eqn:E; [lia|apply Nat.eqb_neq in E; lia]. Qed.

Definition cnt (s : X) : nat := length (filter (fun i => enb i s) (seq 0 n)).
Lemma en_bound : forall i s, en i s -> i < n.
Proof. intros i s (t & H). eapply bound; eauto. Qed.
Section Step.
Variables (i : nat) (s t : X).
Hypothesis ST : step i s t.
Lemma here : In i (seq 0 n).
Proof. apply in_seq. pose proof (bound _ _ _ ST). lia. Qed.
Lemma was : enb i s = true.
Proof. apply enb_en. exists t; auto. Qed.
Lemma is_not : enb i t = false.
Proof. destruct (enb i t) eqn:E; auto. apply enb_en in E. destruct (quiet _ _ _ ST E). Qed.
Lemma others : forall k, k < n -> k <> aft i -> enb k t = true -> enb k s = true.
Proof.
  intros k K NE E. apply enb_en in E. apply enb_en. destruct (Nat.eq_dec k i) as [->|NI]; [destruct (quiet _ _ _ ST E)|].
  apply (apart k i s t ST NI); auto. intros C. apply bef_aft in C; auto. eapply bound; eauto.
Qed.
Lemma cnt_step : cnt t <= cnt s.
Proof.
  unfold cnt. apply (exchanged (fun k => enb k s) (fun k => enb k t) (seq 0 n) (seq_NoDup n 0) i here was is_not (aft i)).
  intros k K NE E. apply in_seq in K. apply others; auto. lia.
Qed.
(** The next process was enabled already, or is not enabled afterwards: one fewer. *)
Lemma cnt_collide : en (aft i) s \/ ~ en (aft i) t -> cnt t < cnt s.
Proof.
  intros H. unfold cnt. apply (lost (fun k => enb k s) (fun k => enb k t) (seq 0 n) (seq_NoDup n 0) i here was is_not).
  intros k K E. apply in_seq in K. destruct (Nat.eq_dec k (aft i)) as [->|NE].
  - destruct H as [H|H]; [apply enb_en; auto|]. apply enb_en in E. contradiction.
  - apply others; auto. lia.
Qed.
End Step.

Inductive path : X -> list nat -> X -> Prop :=
| path_nil : forall s, path s [] s
| path_cons : forall i s u w t, step i s u -> path u w t -> path s (i :: w) t.
Lemma path_app : forall w s u w' t, path s w u -> path u w' t -> path s (w ++ w') t.
Proof. induction w as [|i w IH]; intros s u w' t H K; inversion H; subst; auto. econstructor; eauto. Qed.
Lemma path_split : forall w s w' t, path s (w ++ w') t -> exists u, path s w u /\ path u w' t.
Proof.
  induction w as [|i w IH]; intros s w' t H; [exists s; split; auto; constructor|].
  inversion H; subst. edestruct IH as (v & A & B); eauto. exists v. split; auto. econstructor; eauto.
Qed.
Lemma cnt_path : forall w s t, path s w t -> cnt t <= cnt s.
Proof. intros w s t H. induction H as [|i s u w t S P IH]; auto. pose proof (cnt_step _ _ _ S). lia. Qed.

Lemma stays : forall k w y x, path y w x -> ~ In k w -> en k y -> cnt y = cnt x -> en k x.
Proof.
  intros k w y x H. induction H as [|i s u w t S P IH]; intros NI EN C; auto.
  assert (IK : k <> i) by (intros ->; apply NI; left; auto).
  pose proof (cnt_step _ _ _ S). pose proof (cnt_path _ _ _ P).
  assert (BK : bef k <> i).
  { intros B. apply bef_aft in B; [|eapply bound; eauto|eapply en_bound; eauto]. subst k. pose proof (cnt_collide i s u S (or_introl EN)). lia. }
  apply IH; [intros C'; apply NI; right; auto| |lia]. apply (apart k i s u S IK BK). auto.
Qed.

(** Everybody acts on a cycle. *)
Lemma next_acts : forall c w j, path c w c -> In j w -> In (aft j) w.
Proof.
  intros c w j P J. destruct (in_dec Nat.eq_dec (aft j) w) as [I|NI]; auto. exfalso.
  apply in_split in J. destruct J as (w1 & w2 & ->). apply path_split in P. destruct P as (x & P1 & P2).
  inversion P2 as [|? ? y ? ? S P3]; subst.
  assert (R : path y (w2 ++ w1) x) by (eapply path_app; eauto).
  pose proof (cnt_path _ _ _ R). pose proof (cnt_step _ _ _ S).
  assert (E : en (aft j) y).
  { destruct (en_dec (aft j) y) as [E|E]; auto. pose proof (cnt_collide j x y S (or_intror E)). lia. }
  assert (E' : en (aft j) x).
  { apply (stays (aft j) (w2 ++ w1) y x R); auto; [|lia]. intros C. apply NI. apply in_app_or in C. apply in_or_app. destruct C; [right; right; auto|left; auto]. }
  pose proof (cnt_collide j x y S (or_introl E')). lia.
Qed.
Lemma all_act : forall c w, path c w c -> w <> [] -> forall i, i < n -> In i w.
Proof.
  intros c w P NE. destruct w as [|j w]; [congruence|]. set (W := j :: w) in *. clearbody W.
  assert (J : exists j, j < n /\ In j W).
  { inversion P as [|i ? u ? ? S]; subst; [congruence|]. exists i. split; [eapply bound; eauto|left; auto]. }
  destruct J as (j0 & JB & J).
  assert (UP : forall d j, j + d < n -> In j W -> In (j + d) W).
  { induction d as [|d IH]; intros k B K; [rewrite Nat.add_0_r; auto|]. replace (k + S d) with (S k + d) by lia. apply IH; [lia|].
    pose proof (next_acts c W k P K) as A. unfold aft in A. destruct (S k =? n) eqn:E; [apply Nat.eqb_eq in E; lia|auto]. }
  assert (LAST : In (n - 1) W).
  { pose proof (UP (n - 1 - j0) j0) as H. replace (j0 + (n - 1 - j0)) with (n - 1) in H by lia. apply H; auto; lia. }
  assert (FIRST : In 0 W).
  { pose proof (next_acts c W (n - 1) P LAST) as A. unfold aft in A. replace (S (n - 1)) with n in A by lia. rewrite Nat.eqb_refl in A. auto. }
  intros i I. apply (UP i 0); auto.
Qed.

Section Cycle.
Variables (c : X) (v0 : list nat).
Hypothesis CYC : path c v0 c.
Hypothesis NE : v0 <> [].
(** c can still be reached, and no two have met on the way. *)
Definition live (u : X) : Prop := exists w, path u w c /\ cnt u = cnt c.

Lemma first_split : forall (i : nat) w, In i w -> exists w1 w2, w = w1 ++ i :: w2 /\ ~ In i w1.
Proof.
  intros i w. induction w as [|j w IH]; intros [].
  - subst j. exists [], w. split; auto.
  - destruct (Nat.eq_dec i j) as [->|N]; [exists [], w; auto|]. destruct (IH H) as (w1 & w2 & -> & NI). exists (j :: w1), w2.
    split; auto. intros [C|C]; auto.
Qed.
Lemma commute : forall i w2 w1 u, path u (w1 ++ i :: w2) c -> ~ In i w1 -> en i u -> ~ en (aft i) u \/ aft i = i -> cnt u = cnt c ->
  exists v, step i u v /\ path v (w1 ++ w2) c.
Proof.
  intros i w2. induction w1 as [|j w1 IH]; intros u P NI EN D C.
  - inversion P; subst. eauto.
  - cbn [app] in P. inversion P as [|? ? u' ? ? S P']; subst.
    assert (JI : i <> j) by (intros ->; apply NI; left; auto).
    pose proof (cnt_step _ _ _ S). pose proof (cnt_path _ _ _ P'). pose proof (bound _ _ _ S) as JB. pose proof (en_bound _ _ EN) as IB.
    assert (B1 : bef i <> j).
    { intros B. apply bef_aft in B; auto. pose proof (cnt_collide j u u' S) as K. rewrite <- B in K. pose proof (K (or_introl EN)). lia. }
    assert (B2 : bef j <> i).
    { intros B. apply bef_aft in B; auto. destruct D as [D|D]; [|congruence]. apply D. rewrite <- B. exists u'; auto. }
    assert (D' : ~ en (aft i) u' \/ aft i = i).
    { destruct D as [D|D]; auto. left. intros E. apply D. apply (apart (aft i) j u u' S); auto.
      - intros E'. apply B2. apply bef_aft; auto.
      - replace (bef (aft i)) with i; auto. symmetry. apply bef_aft; auto. apply aft_bound; auto. }
    destruct (IH u' P') as (v' & S' & P''); auto.
    + intros C'. apply NI. right; auto.
    + apply (apart i j u u' S); auto.
    + lia.
    + destruct (swap i j u u' v' S S' JI B1 B2) as (v & V1 & V2). exists v. split; auto. cbn [app]. econstructor; eauto.
Qed.
Lemma advance : forall i u, live u -> en i u -> ~ en (aft i) u \/ aft i = i -> exists v, step i u v /\ live v.
Proof.
  intros i u (w & P & C) EN D. pose proof (path_app _ _ _ _ _ P CYC) as Q.
  assert (IN : In i (w ++ v0)) by (apply in_or_app; right; apply (all_act c v0 CYC NE); eapply en_bound; eauto).
  destruct (first_split i _ IN) as (w1 & w2 & E & NI). rewrite E in Q.
  destruct (commute i w2 w1 u Q NI EN D C) as (v & S & PV). exists v. split; auto. exists (w1 ++ w2). split; auto.
  pose proof (cnt_step _ _ _ S). pose proof (cnt_path _ _ _ PV). lia.
Qed.
Lemma live_en : forall u, live u -> exists i, en i u.
Proof.
  intros u (w & P & _). destruct w as [|i w].
  - inversion P; subst. inversion CYC as [|i ? x ? ? S]; subst; [congruence|]. exists i, x. auto.
  - inversion P as [|? ? x ? ? S]; subst. exists i, x. auto.
Qed.

(** Processes m-1, ..., 0 have their turn. *)
Definition turn_of (i : nat) (s t : X) : Prop := step i s t \/ (t = s /\ ~ en i s).
Fixpoint down (m : nat) (s t : X) : Prop :=
  match m with 0 => s = t | S i => exists u, turn_of i s u /\ down i u t end.
Lemma down_live : 0 < n -> forall m u, m <= n -> live u -> (m < n -> ~ en m u) -> (m = n -> ~ en 0 u) ->
  exists v, down m u v /\ live v /\ ~ en 0 v.
Proof.
  intros NP. induction m as [|i IH]; intros u M L D1 D2.
  - exists u. cbn. split; auto.
  - assert (IN : i < n) by lia.
    assert (D : ~ en (aft i) u).
    { unfold aft. destruct (S i =? n) eqn:E; [apply Nat.eqb_eq in E; auto|apply Nat.eqb_neq in E; apply D1; lia]. }
    destruct (en_dec i u) as [E|E].
    + destruct (advance i u L E (or_introl D)) as (v & S & LV). destruct (IH v) as (v' & W & R); auto; [lia|intros _; eapply quiet; eauto|lia|].
      exists v'. split; auto. cbn. exists v. split; auto. left; auto.
    + destruct (IH u) as (v' & W & R); auto; [lia|lia|]. exists v'. split; auto. cbn. exists u. split; auto. right; auto.
Qed.
Lemma rounds : 0 < n -> forall u, live u -> ~ en 0 u -> forall m, exists f : nat -> X, f 0 = u /\
  (forall i, i < m -> down n (f i) (f (S i))) /\ forall i, i <= m -> live (f i) /\ ~ en 0 (f i).
Proof.
  intros NP u L D m. induction m as [|m (f & F0 & FR & FL)].
  - exists (fun _ => u). split; auto. split; [lia|auto].
  - destruct (FL m (le_n m)) as (LM & DM). destruct (down_live NP n (f m)) as (v & W & LV & DV); auto; [lia|].
    exists (fun i => if i =? S m then v else f i). split; [auto|]. split.
    + intros i I. replace (i =? S m) with false by (symmetry; apply Nat.eqb_neq; lia).
      destruct (Nat.eqb_spec (S i) (S m)) as [E|E]; [injection E as ->; auto|apply FR; lia].
    + intros i I. destruct (Nat.eqb_spec i (S m)) as [E|E]; [auto|apply FL; lia].
Qed.
End Cycle.

(** Every cycle passes a state in which process 0 has just acted. *)
Lemma start_over : 0 < n -> forall c w, path c w c -> w <> [] ->
  exists y a b, path c a y /\ path y b c /\ path y (b ++ a) y /\ b ++ a <> [] /\ ~ en 0 y.
Proof.
  intros NP c w P NE. assert (Z : In 0 w) by (apply (all_act c w P NE); auto).
  apply in_split in Z. destruct Z as (a & b & ->). apply path_split in P. destruct P as (x & P1 & P2).
  inversion P2 as [|? ? y ? ? S P3]; subst. exists y, (a ++ [0]), b.
  assert (A : path c (a ++ [0]) y) by (eapply path_app; eauto; econstructor; eauto; constructor).
  split; auto. split; auto. split; [eapply path_app; eauto|]. split; [destruct b; [destruct a; discriminate|discriminate]|eapply quiet; eauto].
Qed.
End Ring.
