(** The whole search: which tables are printed. *)
From Coq Require Import List Arith Lia Bool.
From Verif Require Import FinLib UniModel UniSpec UniProofs LivelockModel LivelockSpec LivelockProofs
  TileModel TileSpec TileProofs TileProofs2 CanonModel CanonSpec CanonProofs
  GenModel GenSpec GenProofs GenProofs2 GenProofs3 GenProofs4 GenProofs5 GenProofs6 GenProofs7.
Import ListNotations.

Lemma fold2_clear : forall (f : nat -> nat -> nat) (l1 l2 : list nat) s j,
  mem (fold_left (fun s a => fold_left (fun s b => upd s (f a b) false) l2 s) l1 s) j <->
  mem s j /\ ~ exists a b, In a l1 /\ In b l2 /\ f a b = j.
Proof.
  intros f l1 l2. induction l1 as [|a l1 IH]; intros s j.
  - simpl. split; [|tauto]. intros H. split; [auto|]. intros (a & b & [] & _).
  - cbn [fold_left]. rewrite IH.
    assert (E : mem (fold_left (fun s b => upd s (f a b) false) l2 s) j <-> mem s j /\ ~ exists b, In b l2 /\ f a b = j).
    { clear IH. revert s. induction l2 as [|b l2 IH2]; intros s.
      - simpl. split; [|tauto]. intros H. split; [auto|]. intros (b & [] & _).
      - cbn [fold_left]. rewrite IH2, mem_clear. split.
        + intros [[H1 H2] H3]. split; [auto|]. intros (b' & [<-|Hb] & E); [auto|]. apply H3. exists b'. auto.
        + intros [H1 H2]. split; [split; [auto|]|].
          * intros E. apply H2. exists b. split; [left|]; auto.
          * intros (b' & Hb & E). apply H2. exists b'. split; [right|]; auto. }
    rewrite E. split.
    + intros [[H1 H2] H3]. split; [auto|]. intros (a' & b & [<-|Ha] & Hb & Eq).
      * apply H2. exists b. auto.
      * apply H3. exists a', b. auto.
    + intros [H1 H2]. split; [split; [auto|]|].
      * intros (b & Hb & Eq). apply H2. exists a, b. split; [left|]; auto.
      * intros (a' & b & Ha & Hb & Eq). apply H2. exists a', b. split; [right|]; auto.
Qed.

Lemma fold2_length : forall (f : nat -> nat -> nat) (l1 l2 : list nat) s,
  length (fold_left (fun s a => fold_left (fun s b => upd s (f a b) false) l2 s) l1 s) = length s.
Proof.
  intros f l1 l2. induction l1 as [|a l1 IH]; intros s; [reflexivity|]. cbn [fold_left]. rewrite IH.
  clear IH. revert s. induction l2 as [|b l2 IH2]; intros s; [reflexivity|]. cbn [fold_left].
  rewrite IH2. apply upd_length.
Qed.

Section Top.
Variable o : SearchOpt.
Notation M := (domsz o).
Notation N := (domsz o * domsz o * domsz o).
Notation inn := (in_set (domsz o)).
Notation nw := (nw_disabling o).
Hypothesis M0 : M <> 0.

Lemma remove_spec : forall id s x, mem (remove_all M id s) x <->
  mem s x /\ ~ exists a b, a < M /\ b < M /\ id a b = x.
Proof.
  intros id s x. unfold remove_all. rewrite fold2_clear. split; intros [H1 H2]; (split; [auto|]);
    intros (a & b & Ha & Hb & E); apply H2; exists a, b.
  - split; [apply in_seq; lia|]. split; [apply in_seq; lia|auto].
  - apply in_seq in Ha, Hb. split; [lia|]. split; [lia|auto].
Qed.

Lemma remove_length : forall id s, length (remove_all M id s) = length s.
Proof. intros. apply fold2_length. Qed.

(** Kinds of actions, by their number. *)
Definition aab (x : nat) : Prop := let '(a, b, c) := uniact_of_id x M in a = b.
Definition aba (x : nat) : Prop := let '(a, b, c) := uniact_of_id x M in a = c.

Lemma trip3 : forall a b c, a < M -> b < M -> c < M -> uniact_of_id (id_of3 a b c M) M = (a, b, c).
Proof. intros. apply uniact_of_id3; auto. Qed.

Lemma remove_AAB_spec : forall s x, length s = N -> (mem (remove_AAB M s) x <-> mem s x /\ ~ aab x).
Proof.
  intros s x L. unfold remove_AAB. rewrite remove_spec. split; intros [H1 H2]; (split; [auto|]).
  - intros H3. apply H2. unfold aab in H3. destruct (uniact_of_id x M) as [[a b] c] eqn:E.
    apply mem_lt in H1. destruct (trip_pos o M0 x a b c ltac:(lia) E) as (_ & Ha & Hb & Hc & ->).
    subst b. exists a, c. auto.
  - intros (a & b & Ha & Hb & <-). apply H2. unfold aab. rewrite trip3 by auto. reflexivity.
Qed.

Lemma remove_ABA_spec : forall s x, length s = N -> (mem (remove_ABA M s) x <-> mem s x /\ ~ aba x).
Proof.
  intros s x L. unfold remove_ABA. rewrite remove_spec. split; intros [H1 H2]; (split; [auto|]).
  - intros H3. apply H2. unfold aba in H3. destruct (uniact_of_id x M) as [[a b] c] eqn:E.
    apply mem_lt in H1. destruct (trip_pos o M0 x a b c ltac:(lia) E) as (_ & Ha & Hb & Hc & ->).
    subst c. exists a, b. auto.
  - intros (a & b & Ha & Hb & <-). apply H2. unfold aba. rewrite trip3 by auto. reflexivity.
Qed.

Lemma start_length : length (start_candidates o) = N.
Proof.
  unfold start_candidates, remove_ABB, remove_ABA. destruct nw; rewrite ?remove_length, repeat_length; reflexivity.
Qed.

Lemma start_spec : forall x, mem (start_candidates o) x <-> x < N /\ based o x.
Proof.
  intros x. unfold start_candidates.
  assert (A : mem (remove_ABB M (repeat true N)) x <->
     x < N /\ (let '(a, b, c) := uniact_of_id x M in b <> c)).
  { unfold remove_ABB. rewrite remove_spec, mem_full. split; intros [H1 H2]; (split; [auto|]).
    - destruct (uniact_of_id x M) as [[a b] c] eqn:E. intros ->. apply H2.
      destruct (trip_pos o M0 x a c c H1 E) as (_ & Ha & Hb & Hc & ->). exists a, c. auto.
    - intros (a & b & Ha & Hb & <-). rewrite trip3 in H2 by auto. auto. }
  unfold based. destruct nw eqn:Enw.
  - rewrite remove_ABA_spec by (unfold remove_ABB; rewrite remove_length, repeat_length; auto). rewrite A.
    unfold aba. destruct (uniact_of_id x M) as [[a b] c]. tauto.
  - rewrite A. destruct (uniact_of_id x M) as [[a b] c]. split; [|tauto].
    intros [H1 H2]. split; [auto|]. split; [auto|discriminate].
Qed.

(** * Running from one action *)
Definition none : list bool := repeat false N.

Lemma inn_none : forall a b c, ~ inn none a b c.
Proof. intros a b c H. apply (inn_trip o none) in H; [|apply repeat_length]. apply (mem_wipe N (id_of3 a b c M)). apply H. Qed.

Lemma adm_none : admissible nw (inn none).
Proof.
  split; [|split; [|split; [|split]]].
  - intros a b c d H. elim (inn_none _ _ _ H).
  - intros a b c d H. elim (inn_none _ _ _ H).
  - intros a c [H _]. elim (inn_none _ _ _ H).
  - intros a c [H _]. elim (inn_none _ _ _ H).
  - intros _ a b c d H. elim (inn_none _ _ _ H).
Qed.

Lemma single_not_good : forall act, act < N -> ~ good o (upd none act true).
Proof.
  intros act Ha (L & HA & _ & _ & HR).
  assert (Hm : forall x, mem (upd none act true) x <-> x = act).
  { intros x. rewrite mem_set. unfold none at 2. rewrite repeat_length. split; [|tauto].
    intros [H|[H _]]; [elim (mem_wipe _ _ H)|auto]. }
  destruct (uniact_of_id act M) as [[a b] c] eqn:E.
  destruct (trip_pos o M0 act a b c Ha E) as (_ & Ra & Rb & Rc & Ei).
  assert (Hu : forall x y z, inn (upd none act true) x y z -> (x, y, z) = (a, b, c)).
  { intros x y z H. apply (inn_trip o) in H; [|auto]. destruct H as [H1 H2]. apply Hm in H1.
    rewrite H1, E in H2. auto. }
  assert (Hi : inn (upd none act true) a b c).
  { apply (mem_id o); auto. apply Hm. auto. }
  specialize (HR a b c Hi). destruct HR as (e & HR).
  assert (Hstep : exists u v, continues (inn (upd none act true)) u v).
  { remember (a, b, e) as u. clear Hequ. induction HR; eauto. }
  destruct Hstep as ([[x y] z] & [[x' y'] z'] & H1 & (w & H2) & _ & f & H4 & _).
  apply Hu in H1, H2, H4. injection H1 as -> -> ->. injection H2 as _ E2 _. injection H4 as E4 _ _.
  destruct HA as (_ & HS & _). apply (HS a b c c); [auto|]. congruence.
Qed.

Lemma node_start : forall c act, length c = N -> (forall x, mem c x -> based o x) -> mem c act ->
  node o act none c [] act 1.
Proof.
  intros c act Lc HB Ha. constructor; auto.
  - split; [|split; [constructor|exact I]]. split; [apply repeat_length|]. split; [auto|].
    intros x _. apply mem_wipe.
  - intros y Hy. elim (mem_wipe _ _ Hy).
  - intros x Hx. split; [auto|]. intros y Hy. elim (mem_wipe _ _ Hy).
  - apply adm_none.
  - unfold cnt, cntp. rewrite Nat.sub_diag. reflexivity.
  - lia.
Qed.

Lemma start_run : forall c x y z, length c = N -> (forall x, mem c x -> based o x) ->
  x < M -> y < M -> z < M -> mem c (id_of3 x y z M) ->
  exists p f, recurse_at o c x y z = Some ([c], p, f) /\
    post o (id_of3 x y z M) (id_of3 x y z M) (cset (upd none (id_of3 x y z M) true) c (id_of3 x y z M + 1))
      (cset (upd none (id_of3 x y z M) true) c (id_of3 x y z M + 1)) p f.
Proof.
  intros c x y z Lc HB Hx Hy Hz Hm. unfold recurse_at.
  rewrite !(proj2 (Nat.ltb_lt _ _)) by auto. cbn [andb].
  destruct (recurse_spec o M0 (id_of3 x y z M) N none c [] (id_of3 x y z M) 1) as (l2 & p & f & E & HS & HC & HP).
  - apply node_start; auto.
  - lia.
  - cbn [map snd] in E. unfold none in E at 1. rewrite E.
    destruct l2 as [|i2 l2]; [inversion HS|]. inversion_clear HS as [|? ? ? ? S1 S2].
    inversion S2. subst l2. destruct S1 as (_ & _ & _ & S1). cbn [fst snd] in S1.
    cbn [map]. rewrite S1 by (intros w; apply mem_wipe). exists p, f. split; [reflexivity|].
    destruct HP as (A1 & A2 & A3 & A4 & A5).
    assert (Hid : id_of3 x y z M < N) by (apply mem_lt in Hm; lia).
    assert (NC : forall s, good o s -> cset (upd none (id_of3 x y z M) true) c (id_of3 x y z M + 1) s ->
       ncond o none c (id_of3 x y z M) 1 s).
    { intros s Hg Hc. split; [auto|]. intros _ _ ->. apply (single_not_good _ Hid). auto. }
    split; [auto|]. split; [|split; [|split; [auto|]]].
    + intros t Ht. apply A2 in Ht. destruct Ht as (s & T & G & [C _] & St). exists s. auto.
    + intros He s G C St. apply A3; auto.
    + intros He Hb s w G C Hw St. apply A5 with (x := w); auto.
Qed.

(** * The three starts *)
Definition started (s : list bool) : Prop := starts (inn s).

Lemma id_small : forall x, x < N -> forall a b c, uniact_of_id x M = (a, b, c) -> x < M * M -> a = 0 /\ x = b * M + c.
Proof.
  intros x Hx a b c E Hs. destruct (trip_pos o M0 x a b c Hx E) as (_ & Ha & Hb & Hc & ->).
  unfold id_of3, id_of2 in *. destruct a; [split; lia|]. exfalso. nia.
Qed.

Lemma cset_one : forall s act c, length s = N -> act < N ->
  (cset (upd none act true) c (act + 1) s <->
    mem s act /\ (forall x, x < act -> ~ mem s x) /\ (forall x, act < x -> mem s x -> mem c x)).
Proof.
  intros s act c L Ha. assert (Hm : forall x, mem (upd none act true) x <-> x = act).
  { intros x. rewrite mem_set. unfold none at 2. rewrite repeat_length. split; [|tauto].
    intros [H|[H _]]; [elim (mem_wipe _ _ H)|auto]. }
  split.
  - intros [H1 H2]. split; [apply H1; [lia|apply Hm; auto]|]. split.
    + intros x Hx H. apply H1 in H; [|lia]. apply Hm in H. lia.
    + intros x Hx. apply H2. lia.
  - intros (H1 & H2 & H3). split.
    + intros x Hx. rewrite Hm. split; [|intros ->; auto]. intros H. destruct (Nat.eq_dec x act); [auto|].
      exfalso. apply (H2 x); auto. lia.
    + intros x Hx. apply H3. lia.
Qed.

Lemma kinds : forall s, length s = N -> 
  ((forall x, mem s x -> ~ aab x) <-> (forall a b, ~ inn s a a b)) /\
  ((forall x, mem s x -> ~ aba x) <-> (forall a b, ~ inn s a b a)).
Proof.
  intros s L. split; split; intros H.
  - intros a b Hi. apply (inn_trip o) in Hi; auto. destruct Hi as [H1 H2]. apply (H _ H1). unfold aab. rewrite H2. auto.
  - intros x Hx Ha. destruct (mem_inn M s x L Hx) as (a & b & c & Hi & E & _). unfold aab in Ha. rewrite E in Ha.
    subst b. apply (H a c Hi).
  - intros a b Hi. apply (inn_trip o) in Hi; auto. destruct Hi as [H1 H2]. apply (H _ H1). unfold aba. rewrite H2. auto.
  - intros x Hx Ha. destruct (mem_inn M s x L Hx) as (a & b & c & Hi & E & _). unfold aba in Ha. rewrite E in Ha.
    subst c. apply (H a b Hi).
Qed.

Section Three.
Hypothesis M3 : 3 <= M.
Let i1 := id_of3 0 0 1 M.
Let i2 := id_of3 0 1 0 M.
Let i3 := id_of3 0 1 2 M.
Let c1 := start_candidates o.
Let c2 := remove_AAB M c1.
Let c3 := remove_ABA M c2.

Lemma i_val : i1 = 1 /\ i2 = M /\ i3 = M + 2 /\ i3 < M * M.
Proof. unfold i1, i2, i3, id_of3, id_of2. nia. Qed.

Lemma c2_length : length c2 = N. Proof. unfold c2, remove_AAB. rewrite remove_length. apply start_length. Qed.
Lemma c3_length : length c3 = N. Proof. unfold c3, remove_ABA. rewrite remove_length. apply c2_length. Qed.
Lemma c2_spec : forall x, mem c2 x <-> (x < N /\ based o x) /\ ~ aab x.
Proof. intros x. unfold c2. rewrite remove_AAB_spec by apply start_length. unfold c1. rewrite start_spec. tauto. Qed.
Lemma c3_spec : forall x, mem c3 x <-> ((x < N /\ based o x) /\ ~ aab x) /\ ~ aba x.
Proof. intros x. unfold c3. rewrite remove_ABA_spec by apply c2_length. rewrite c2_spec. tauto. Qed.

Lemma nw_c3 : nw = true -> c3 = c2.
Proof.
  intros Hn. apply set_ext; [rewrite c3_length, c2_length; auto|]. intros x. rewrite c3_spec, c2_spec.
  split; [tauto|]. intros [[H1 H2] H3]. split; [auto|]. unfold based in H2. unfold aba.
  destruct (uniact_of_id x M) as [[a b] c]. tauto.
Qed.

Lemma smaller : forall s, good o s -> ~ mem s 0 /\
  (forall x, mem s x -> x < M -> aab x) /\ (forall x, mem s x -> M <= x < M + 2 -> x = M).
Proof.
  intros s (L & HA & _). pose proof i_val as (_ & _ & _ & Hi). 
  split; [apply (zero_out o M0 s); auto|]. split.
  - intros x Hx Hlt. pose proof (mem_lt _ _ Hx). unfold aab. destruct (uniact_of_id x M) as [[a b] c] eqn:E.
    destruct (id_small x ltac:(lia) a b c E ltac:(nia)) as [-> Ex]. destruct b; auto. nia.
  - intros x Hx Hr. pose proof (mem_lt _ _ Hx). pose proof (adm_based o s x L HA Hx) as HB. unfold based in HB.
    destruct (uniact_of_id x M) as [[a b] c] eqn:E.
    destruct (id_small x ltac:(lia) a b c E ltac:(unfold i3 in Hi; nia)) as [-> Ex].
    destruct (trip_pos o M0 x 0 b c ltac:(lia) E) as (_ & _ & Hb & Hc & _).
    destruct b as [|[|b]]; [nia| |nia]. destruct c as [|[|c]]; [nia| |nia]. exfalso. tauto.
Qed.

Lemma first_iff : forall s, good o s ->
  (cset (upd none i1 true) c1 (i1 + 1) s <-> inn s 0 0 1).
Proof.
  intros s G. pose proof G as (L & HA & _). pose proof (smaller s G) as (H0 & _). destruct i_val as (E1 & _ & _ & E3).
  rewrite cset_one by (auto; nia). unfold i1 at 1. rewrite <- (mem_id o) by (auto; lia). split; [tauto|].
  intros H. split; [auto|]. split.
  - intros x Hx Hm. assert (x = 0) by lia. subst x. auto.
  - intros x Hx Hm. apply start_spec. split; [apply mem_lt in Hm; lia|]. apply (adm_based o s); auto.
Qed.

Lemma second_iff : forall s, good o s ->
  (cset (upd none i2 true) c2 (i2 + 1) s <-> (forall a b, ~ inn s a a b) /\ inn s 0 1 0).
Proof.
  intros s G. pose proof G as (L & HA & _). pose proof (smaller s G) as (H0 & HS & _). destruct i_val as (_ & E2 & _ & E3).
  destruct (kinds s L) as [K _]. rewrite <- K.
  rewrite cset_one by (auto; nia). unfold i2 at 1. rewrite <- (mem_id o) by (auto; lia).
  split.
  - intros (H1 & H2 & H3). split; [|auto]. intros x Hx. destruct (lt_eq_lt_dec x i2) as [[Hl|He]|Hg].
    + elim (H2 x); auto.
    + subst x. unfold aab, i2. rewrite trip3 by lia. lia.
    + apply H3 in Hx; auto. apply c2_spec in Hx. tauto.
  - intros [H1 H2]. split; [auto|]. split.
    + intros x Hx Hm. apply (H1 x Hm). apply HS; auto. lia.
    + intros x Hx Hm. apply c2_spec. split; [split; [apply mem_lt in Hm; lia|apply (adm_based o s); auto]|]. auto.
Qed.

Lemma third_iff : forall s, good o s ->
  (cset (upd none i3 true) c3 (i3 + 1) s <->
    (forall a b, ~ inn s a a b) /\ (forall a b, ~ inn s a b a) /\ inn s 0 1 2).
Proof.
  intros s G. pose proof G as (L & HA & _). pose proof (smaller s G) as (H0 & HS & HT). destruct i_val as (_ & _ & E2 & E3).
  destruct (kinds s L) as [K K2]. rewrite <- K, <- K2.
  rewrite cset_one by (auto; nia). unfold i3 at 1. rewrite <- (mem_id o) by (auto; lia).
  split.
  - intros (H1 & H2 & H3). assert (Q : forall x, mem s x -> ~ aab x /\ ~ aba x).
    { intros x Hx. destruct (lt_eq_lt_dec x i3) as [[Hl|He]|Hg].
      + elim (H2 x); auto.
      + subst x. unfold aab, aba, i3. rewrite trip3 by lia. lia.
      + apply H3 in Hx; auto. apply c3_spec in Hx. tauto. }
    split; [|split; [|auto]]; intros x Hx; apply Q; auto.
  - intros (H1 & H2 & H3). split; [auto|]. split.
    + intros x Hx Hm. destruct (Nat.lt_ge_cases x M); [apply (H1 x Hm); apply HS; auto|].
      assert (E : x = M) by (apply HT; auto; lia). apply (H2 x Hm). unfold aba. 
      assert (Ei : x = i2) by (pose proof i_val; lia). rewrite Ei. unfold i2. rewrite trip3 by lia. reflexivity.
    + intros x Hx Hm. apply c3_spec. split; [split; [split; [apply mem_lt in Hm; lia|apply (adm_based o s); auto]|auto]|auto].
Qed.

Lemma starts_cases : forall s, good o s -> (starts (inn s) <->
  cset (upd none i1 true) c1 (i1 + 1) s \/ cset (upd none i2 true) c2 (i2 + 1) s \/ cset (upd none i3 true) c3 (i3 + 1) s).
Proof. intros s G. rewrite first_iff, second_iff, third_iff by auto. reflexivity. Qed.

(** Which of the three starts finds a set. *)
Definition root (s : list bool) : nat := if nth i1 s false then i1 else if nth i2 s false then i2 else i3.

Lemma root_of : forall s, good o s ->
  (cset (upd none i1 true) c1 (i1 + 1) s -> root s = i1) /\
  (cset (upd none i2 true) c2 (i2 + 1) s -> root s = i2) /\
  (cset (upd none i3 true) c3 (i3 + 1) s -> root s = i3).
Proof.
  intros s G. pose proof (proj1 G) as L. destruct i_val as (E1 & E2 & E3 & E4). split; [|split]; intros H; unfold root.
  - apply cset_one in H; auto; [|nia]. destruct H as [H _]. unfold mem in H. rewrite H. auto.
  - apply cset_one in H; auto; [|nia]. destruct H as (H & H' & _). specialize (H' i1 ltac:(lia)). unfold mem in H, H'.
    destruct (nth i1 s false); [congruence|]. rewrite H. auto.
  - apply cset_one in H; auto; [|nia]. destruct H as (H & H' & _). pose proof (H' i1 ltac:(lia)). pose proof (H' i2 ltac:(lia)).
    unfold mem in *. destruct (nth i1 s false); [congruence|]. destruct (nth i2 s false); [congruence|auto].
Qed.

Definition top_post (p f : list (list nat)) : Prop :=
  NoDup p /\
  (forall t, In t p -> exists s, tab o s = t /\ good o s /\ started s /\ forall x, root s <= x -> ~ stops o (root s) s x) /\
  (exact o -> forall s, good o s -> started s -> (forall x, root s <= x -> ~ stops o (root s) s x) -> In (tab o s) p) /\
  (forall t, In t f -> exists s h, tab o s = t /\ fr o h s /\
     ((h = i1 /\ cset (upd none i1 true) c1 (i1 + 1) s) \/ (h = i2 /\ cset (upd none i2 true) c2 (i2 + 1) s) \/
      (h = i3 /\ cset (upd none i3 true) c3 (i3 + 1) s))) /\
  (exact o -> bfs o = true -> forall s x, good o s -> started s -> root s <= x -> stops o (root s) s x ->
     exists x', root s <= x' /\ stops o (root s) s x' /\ In (tab o (cut s x')) f).

Lemma post_empty : forall h b (C F : list bool -> Prop), (forall s, good o s -> ~ C s) -> post o h b C F [] [].
Proof.
  intros h b C F H. split; [constructor|]. split; [easy|]. split; [|split; [easy|]].
  - intros _ s G HC. elim (H s G HC).
  - intros _ _ s x G HC. elim (H s G HC).
Qed.

Lemma combine : forall p1 f1 p2 f2 p3 f3,
  post o i1 i1 (cset (upd none i1 true) c1 (i1 + 1)) (cset (upd none i1 true) c1 (i1 + 1)) p1 f1 ->
  post o i2 i2 (cset (upd none i2 true) c2 (i2 + 1)) (cset (upd none i2 true) c2 (i2 + 1)) p2 f2 ->
  post o i3 i3 (cset (upd none i3 true) c3 (i3 + 1)) (cset (upd none i3 true) c3 (i3 + 1)) p3 f3 ->
  top_post (p1 ++ p2 ++ p3) (f1 ++ f2 ++ f3).
Proof.
  intros p1 f1 p2 f2 p3 f3 (A1 & A2 & A3 & A4 & A5) (B1 & B2 & B3 & B4 & B5) (C1 & C2 & C3 & C4 & C5).
  destruct i_val as (E1 & E2 & E3 & E4).
  assert (D : forall s s' : list bool, good o s -> good o s' -> tab o s = tab o s' -> s = s').
  { intros s s' G G' E. apply good_det in G, G'. apply (tab_inj o M0); tauto. }
  split; [|split; [|split; [|split]]].
  - apply NoDup_app_disj; auto; [apply NoDup_app_disj; auto|].
    + intros t H1 H2. apply B2 in H1. apply C2 in H2. destruct H1 as (s & T & G & Cs & _), H2 as (s' & T' & G' & Cs' & _).
      assert (s = s') by (apply D; auto; congruence). subst s'. destruct (root_of s G) as (_ & R2 & R3).
      apply R2 in Cs. apply R3 in Cs'. lia.
    + intros t H1 H2. apply A2 in H1. destruct H1 as (s & T & G & Cs & _). destruct (root_of s G) as (R1 & R2 & R3).
      apply in_app_iff in H2. destruct H2 as [H2|H2].
      * apply B2 in H2. destruct H2 as (s' & T' & G' & Cs' & _).
        assert (s = s') by (apply D; auto; congruence). subst s'. apply R1 in Cs. apply R2 in Cs'. lia.
      * apply C2 in H2. destruct H2 as (s' & T' & G' & Cs' & _).
        assert (s = s') by (apply D; auto; congruence). subst s'. apply R1 in Cs. apply R3 in Cs'. lia.
  - intros t Ht. rewrite !in_app_iff in Ht. destruct Ht as [Ht|[Ht|Ht]];
      [apply A2 in Ht|apply B2 in Ht|apply C2 in Ht]; destruct Ht as (s & T & G & Cs & St);
      exists s; (split; [auto|]); (split; [auto|]); (split; [apply starts_cases; tauto|]);
      destruct (root_of s G) as (R1 & R2 & R3).
    + rewrite R1; auto. + rewrite R2; auto. + rewrite R3; auto.
  - intros He s G Hs St. rewrite !in_app_iff. destruct (root_of s G) as (R1 & R2 & R3).
    apply starts_cases in Hs; auto. destruct Hs as [Hs|[Hs|Hs]].
    + rewrite R1 in St by auto. left. apply A3; auto.
    + rewrite R2 in St by auto. right. left. apply B3; auto.
    + rewrite R3 in St by auto. right. right. apply C3; auto.
  - intros t Ht. rewrite !in_app_iff in Ht. destruct Ht as [Ht|[Ht|Ht]];
      [apply A4 in Ht|apply B4 in Ht|apply C4 in Ht]; destruct Ht as (s & T & F & Cs).
    + exists s, i1. auto. + exists s, i2. auto 10. + exists s, i3. auto 10.
  - intros He Hb s x G Hs Hx St. destruct (root_of s G) as (R1 & R2 & R3).
    apply starts_cases in Hs; auto. destruct Hs as [Hs|[Hs|Hs]].
    + rewrite R1 in * by auto. destruct (A5 He Hb s x G Hs Hx St) as (x' & X1 & X2 & X3). exists x'.
      rewrite !in_app_iff. auto.
    + rewrite R2 in * by auto. destruct (B5 He Hb s x G Hs Hx St) as (x' & X1 & X2 & X3). exists x'.
      rewrite !in_app_iff. auto.
    + rewrite R3 in * by auto. destruct (C5 He Hb s x G Hs Hx St) as (x' & X1 & X2 & X3). exists x'.
      rewrite !in_app_iff. auto.
Qed.

Theorem search_all_spec : exists p f, search_all o = Some (p, f) /\ top_post p f.
Proof.
  destruct i_val as (E1 & E2 & E3 & E4).
  destruct (start_run c1 0 0 1) as (p1 & f1 & R1 & P1); try lia.
  { apply start_length. } { intros x Hx. apply start_spec in Hx. tauto. }
  { apply start_spec. split; [fold i1; nia|]. unfold based. rewrite trip3 by lia. lia. }
  assert (B2 : forall x, mem c2 x -> based o x) by (intros x Hx; apply c2_spec in Hx; tauto).
  assert (B3 : forall x, mem c3 x -> based o x) by (intros x Hx; apply c3_spec in Hx; tauto).
  destruct (start_run c3 0 1 2) as (p3 & f3 & R3 & P3); try lia; auto.
  { apply c3_length. }
  { apply c3_spec. unfold based, aab, aba. rewrite trip3 by lia. fold i3. assert (i3 < N) by nia. lia. }
  unfold search_all. cbv zeta. fold c1. rewrite R1. cbn [hd]. fold c2.
  destruct nw eqn:Enw.
  - rewrite nw_c3 in R3 by auto. rewrite R3. exists (p1 ++ [] ++ p3), (f1 ++ [] ++ f3). split; [reflexivity|].
    apply combine; auto. apply post_empty. intros s G H. apply second_iff in H; auto. destruct H as [_ H].
    destruct G as (_ & (_ & _ & _ & _ & Hn) & _). apply (Hn Enw 0 1 0 0); auto.
  - destruct (start_run c2 0 1 0) as (p2 & f2 & R2 & P2); try lia; auto.
    { apply c2_length. }
    { apply c2_spec. unfold based, aab. rewrite trip3 by lia. rewrite Enw. fold i2. split; [split; [nia|]|lia].
      split; [lia|discriminate]. }
    rewrite R2. cbn [hd]. fold c3. rewrite R3. exists (p1 ++ p2 ++ p3), (f1 ++ f2 ++ f3). split; [reflexivity|].
    apply combine; auto.
Qed.
End Three.
End Top.
