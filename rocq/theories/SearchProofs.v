(** Lemmas about blaming actions for a livelock. *)
From Coq Require Import List Arith Bool Lia.
From Verif Require Import FinLib ReachModel ReachSpec ReachProofs StabModel RankModel RankProofs SearchModel.
Import ListNotations.

Lemma fold_sadd_in : forall x l, In x (fold_right sadd [] l) <-> In x l.
Proof.
  intros x l. induction l as [|a l IH]; simpl; [tauto|]. rewrite in_sadd, IH. split; intuition.
Qed.

Section Blame.
Variable St : Type.
Variable eq_dec : forall x y : St, {x = y} + {x <> y}.
Variable univ : list St.
Hypothesis Hall : forall s, In s univ.
Variable choose : (St -> bool) -> St.
Hypothesis Hch : forall p : St -> bool, (exists s, p s = true) -> p (choose p) = true.
Variable axn : nat -> St -> St -> bool.

Definition amoves (A : list nat) (x y : St) : Prop := exists a, In a A /\ axn a x y = true.

Lemma one_spec : forall s t, one St eq_dec s t = true <-> s = t.
Proof. intros s t. unfold one. destruct (eq_dec s t); split; congruence. Qed.
Lemma mem_st_spec : forall l t, mem_st St eq_dec l t = true <-> In t l.
Proof. intros l t. unfold mem_st. destruct (in_dec eq_dec t l); split; auto; discriminate. Qed.

(** A path: consecutive states are related. *)
Fixpoint path (R : St -> St -> Prop) (l : list St) : Prop :=
  match l with
  | x :: (y :: _) as r => R x y /\ path R r
  | _ => True
  end.

Lemma path_links : forall R l, path R l <-> forall x y, In (x, y) (links St l) -> R x y.
Proof.
  intros R l. induction l as [|x [|y l] IH].
  - simpl. split; auto. intros _ x y [].
  - simpl. split; auto. intros _ x' y' [].
  - change (path R (x :: y :: l)) with (R x y /\ path R (y :: l)).
    change (links St (x :: y :: l)) with ((x, y) :: links St (y :: l)). rewrite IH. split.
    + intros (H1 & H2) x' y' [X|X]; [inversion X; subst; auto|auto].
    + intros H. split; [apply H; left; auto|intros x' y' X; apply H; right; auto].
Qed.

Lemma path_snoc : forall R l x y, path R (l ++ [x]) -> R x y -> path R (l ++ [x; y]).
Proof.
  intros R l. induction l as [|a l IH]; intros x y H1 H2.
  - simpl. auto.
  - destruct l as [|b l].
    + simpl in *. tauto.
    + destruct H1 as (H1 & H3). simpl app. split; auto. apply (IH x y); auto.
Qed.

Lemma path_suffix : forall R l1 l2, path R (l1 ++ l2) -> path R l2.
Proof.
  intros R l1. induction l1 as [|a l1 IH]; intros l2 H; auto. apply IH. simpl in H. destruct (l1 ++ l2); [exact I|apply H].
Qed.

Lemma path_steps : forall R l x y, path R (x :: l ++ [y]) ->
  forall l1 l2 s, x :: l ++ [y] = l1 ++ s :: l2 -> steps St R (length l1) x s /\ steps St R (length l2) s y.
Proof.
  intros R l x y Hp l1. revert l x Hp. induction l1 as [|a l1 IH]; intros l x Hp l2 s E.
  - simpl in E. injection E as Es E. subst s. split; [apply steps_0; auto|]. revert x l Hp E.
    induction l2 as [|b l2 IH2]; intros x l Hp E.
    + exfalso. destruct l; discriminate.
    + destruct l as [|c l].
      * simpl in E. injection E as <- <-. simpl. apply steps_one. apply Hp.
      * simpl in E. injection E as <- E. destruct Hp as (H1 & H2). cbn [length]. apply steps_S. exists c.
        split; auto. apply (IH2 c l); auto.
  - simpl in E. injection E as <- E. destruct l as [|c l].
    + simpl in E. destruct l1 as [|b l1]; simpl in E; inversion E; subst.
      * split; [|apply steps_0; auto]. apply steps_one. apply Hp.
      * destruct l1; discriminate.
    + simpl in E. destruct Hp as (H2 & H3). destruct (IH l c H3 l2 s) as (H4 & H5).
      { simpl. exact E. }
      split; auto. cbn [length]. apply steps_S. exists c. auto.
Qed.

Lemma links_split : forall (l : list St) x y, In (x, y) (links St l) ->
  exists l1 l2, l = l1 ++ x :: y :: l2.
Proof.
  induction l as [|a [|b l] IH]; intros x y H; try (destruct H; fail).
  change (links St (a :: b :: l)) with ((a, b) :: links St (b :: l)) in H. destruct H as [H|H].
  - inversion H; subst. exists [], l. auto.
  - destruct (IH x y H) as (l1 & l2 & E). exists (a :: l1), l2. rewrite E. auto.
Qed.

Section Walk.
Variable xn : St -> St -> bool.
Variable scc : St -> bool.
Let R x y := xn x y = true.

Lemma walk_spec : forall fuel visit, visit <> [] ->
  path R (rev visit) -> (forall s, In s visit -> scc s = true) ->
  match walk St eq_dec univ choose fuel xn scc visit with
  | Good l => exists z v, l = z :: v /\ v <> [] /\ In z v /\ path R (rev l) /\ forall s, In s l -> scc s = true
  | Bad => False
  | Stuck => True
  end.
Proof.
  induction fuel as [|fuel IH]; intros visit Hne Hp Hs; [exact I|]. destruct visit as [|top v]; [contradiction|].
  simpl. set (next := pand St eq_dec univ scc (img St eq_dec univ xn (one St eq_dec top))).
  assert (Hn : forall t, next t = true <-> scc t = true /\ R top t).
  { intros t. unfold next. rewrite (pand_spec St eq_dec univ Hall), andb_true_iff, (img_spec St eq_dec univ Hall).
    split.
    - intros (H1 & s & H2 & H3). apply one_spec in H2. subst s. auto.
    - intros (H1 & H2). split; auto. exists top. split; auto. apply one_spec. auto. }
  destruct (sat St univ next) eqn:E; cbn [negb]; [|exact I].
  assert (Hpath : forall t, next t = true -> path R (rev (t :: top :: v))).
  { intros t Ht. apply Hn in Ht. simpl. rewrite <- app_assoc. simpl. apply path_snoc; auto. apply Ht. }
  destruct (overlap St univ next (mem_st St eq_dec (top :: v))) eqn:E2.
  - set (m := pand St eq_dec univ next (mem_st St eq_dec (top :: v))).
    assert (Hm : m (choose m) = true).
    { apply Hch. apply (overlap_spec St univ Hall) in E2. destruct E2 as (t & H1 & H2). exists t.
      unfold m. rewrite (pand_spec St eq_dec univ Hall), H1, H2. auto. }
    unfold m at 1 in Hm. rewrite (pand_spec St eq_dec univ Hall), andb_true_iff in Hm. destruct Hm as (H1 & H2).
    exists (choose m), (top :: v). split; auto. split; auto. split; [apply mem_st_spec; auto|]. split; [apply Hpath; auto|].
    intros s [<-|H]; [apply Hn in H1; tauto|auto].
  - assert (H1 : next (choose next) = true) by (apply Hch; apply (sat_spec St univ Hall); auto).
    apply IH; [discriminate|apply Hpath; auto|]. intros s [<-|H]; [apply Hn in H1; tauto|auto].
Qed.

(** Inside a set in which every state has a successor the walk always ends. *)
Lemma walk_ends : (forall s, scc s = true -> exists t, scc t = true /\ R s t) ->
  forall fuel visit, visit <> [] -> NoDup visit -> (forall s, In s visit -> scc s = true) ->
  length univ < fuel + length visit -> walk St eq_dec univ choose fuel xn scc visit <> Stuck.
Proof.
  intros Hsucc. induction fuel as [|fuel IH]; intros visit Hne Hnd Hs Hf.
  - exfalso. assert (length visit <= length univ) by (apply NoDup_incl_length; auto; intros s _; apply Hall). lia.
  - destruct visit as [|top v]; [contradiction|]. simpl.
    set (next := pand St eq_dec univ scc (img St eq_dec univ xn (one St eq_dec top))).
    assert (Hn : forall t, next t = true <-> scc t = true /\ R top t).
    { intros t. unfold next. rewrite (pand_spec St eq_dec univ Hall), andb_true_iff, (img_spec St eq_dec univ Hall).
      split.
      - intros (H1 & s & H2 & H3). apply one_spec in H2. subst s. auto.
      - intros (H1 & H2). split; auto. exists top. split; auto. apply one_spec. auto. }
    assert (Hsat : exists t, next t = true).
    { destruct (Hsucc top) as (t & H1 & H2); [apply Hs; left; auto|]. exists t. apply Hn. auto. }
    rewrite (proj2 (sat_spec St univ Hall next) Hsat). cbn [negb].
    destruct (overlap St univ next (mem_st St eq_dec (top :: v))) eqn:E2; [discriminate|].
    assert (H1 : next (choose next) = true) by (apply Hch; auto).
    apply IH.
    + discriminate.
    + constructor; auto. intros H. assert (overlap St univ next (mem_st St eq_dec (top :: v)) = true); [|congruence].
      apply (overlap_spec St univ Hall). exists (choose next). split; auto. apply mem_st_spec. auto.
    + intros s [<-|H]; [apply Hn in H1; tauto|auto].
    + cbn [length] in *. lia.
Qed.

Lemma from_first_spec : forall z l, In z l -> exists l1 l2,
  l = l1 ++ from_first St eq_dec z l /\ from_first St eq_dec z l = z :: l2 /\ ~ In z l1.
Proof.
  intros z l. induction l as [|x l IH]; intros H; [destruct H|]. simpl. destruct (eq_dec x z) as [->|Hx].
  - exists [], l. auto.
  - destruct IH as (l1 & l2 & H1 & H2 & H3); [destruct H; [contradiction|auto]|].
    exists (x :: l1), l2. simpl. rewrite <- H1. split; auto. split; auto. intros [X|X]; auto.
Qed.

(** The result is a closed path inside the set. *)
Lemma find_one_cycle_spec : forall fuel initial states,
  (exists s, initial s = true) -> (forall s, initial s = true -> scc s = true) ->
  find_one_cycle St eq_dec univ choose fuel xn scc initial = Good states ->
  exists z m, states = z :: m ++ [z] /\ path R states /\ (forall s, In s states -> scc s = true).
Proof.
  intros fuel initial states Hi Hsub. unfold find_one_cycle.
  pose proof (walk_spec fuel [choose initial]) as H. cbn [rev app] in H.
  destruct (walk St eq_dec univ choose fuel xn scc [choose initial]) as [l| |]; try discriminate.
  destruct H as (z & v & -> & Hv & Hz & Hp & Hs).
  - discriminate.
  - exact I.
  - intros s [<-|[]]. apply Hsub. apply Hch. auto.
  - intros E. injection E as E. cbn [rev] in E, Hp.
    destruct (from_first_spec z (rev v ++ [z])) as (l1 & l2 & H1 & H2 & H3).
    { apply in_or_app. right. left. auto. }
    rewrite E in H1, H2. exists z, (removelast l2).
    assert (Hl2 : l2 <> []).
    { intros ->. rewrite H2 in H1. apply app_inj_tail in H1. destruct H1 as (H1 & _). apply H3. rewrite <- H1.
      apply in_rev in Hz. auto. }
    assert (Hlast : states = z :: removelast l2 ++ [z]).
    { rewrite H2. f_equal. rewrite (app_removelast_last z Hl2) at 1. f_equal. f_equal.
      assert (X : last (rev v ++ [z]) z = z) by apply last_last.
      rewrite H1, H2 in X. rewrite <- X at 2. clear -Hl2. induction l1; simpl.
      - destruct l2; [contradiction|auto].
      - rewrite IHl1. destruct (l1 ++ z :: l2) eqn:E; [destruct l1; discriminate|auto]. }
    split; auto. split.
    + rewrite H1 in Hp. apply path_suffix in Hp. auto.
    + intros s Hs'. apply Hs. assert (In s (rev v ++ [z])) by (rewrite H1; apply in_or_app; auto).
      apply in_app_or in H. destruct H as [H|[->|[]]]; [right; apply in_rev; auto|left; auto].
Qed.
End Walk.

(** What the blamed actions are good for: either they have a cycle through an
    illegitimate state of the set, or they have all transitions inside the set. *)
Lemma blame_spec : forall fuel A xn scc inv blamed,
  (forall x y, xn x y = true <-> amoves A x y) ->
  (exists s, scc s = true /\ inv s = false) ->
  find_livelock_actions St eq_dec univ choose axn fuel A xn scc inv = Good blamed ->
  incl blamed A /\
  ((exists s, scc s = true /\ inv s = false /\
      on_cycle St (fun x y => scc x = true /\ scc y = true /\ amoves blamed x y) s) \/
   (forall x y, scc x = true -> scc y = true -> xn x y = true -> amoves blamed x y)).
Proof.
  intros fuel A xn scc inv blamed Hxn (s0 & Hs0 & Hi0). unfold find_livelock_actions.
  assert (Hsub : forall s, pminus St eq_dec univ scc inv s = true -> scc s = true).
  { intros s. rewrite (pminus_spec St eq_dec univ Hall), andb_true_iff. tauto. }
  destruct (find_one_cycle St eq_dec univ choose fuel xn scc (pminus St eq_dec univ scc inv)) as [states| |] eqn:E;
    try discriminate.
  apply find_one_cycle_spec in E; auto.
  2:{ exists s0. rewrite (pminus_spec St eq_dec univ Hall), Hs0, Hi0. auto. }
  destruct E as (z & m & Est & Hp & Hin).
  destruct (existsb (fun l => negb (inv (fst l))) (links St states)) eqn:Ex; intros E; injection E as <-.
  - split. { intros a Ha. rewrite fold_sadd_in in Ha. apply filter_In in Ha. tauto. }
    left. apply existsb_exists in Ex. destruct Ex as ((s, t) & Hl & Hs). cbn [fst] in Hs. apply negb_true_iff in Hs.
    destruct (links_split states s t Hl) as (l1 & l2 & E2).
    assert (Hss : scc s = true). { apply Hin. rewrite E2. apply in_or_app. right. left. auto. }
    exists s. split; auto. split; auto. set (B := fold_right _ _ _).
    assert (HpB : path (fun x y => scc x = true /\ scc y = true /\ amoves B x y) states).
    { apply path_links. intros x y Hxy. pose proof (proj1 (path_links _ states) Hp x y Hxy) as Hr. cbn beta in Hr.
      destruct (links_split states x y Hxy) as (k1 & k2 & E3).
      split; [apply Hin; rewrite E3; apply in_or_app; right; left; auto|].
      split; [apply Hin; rewrite E3; apply in_or_app; right; right; left; auto|].
      apply Hxn in Hr. destruct Hr as (a & Ha & Hax). exists a. split; auto. unfold B.
      rewrite (fold_sadd_in a). apply filter_In. split; auto. apply existsb_exists. exists (x, y). auto. }
    rewrite Est in HpB, E2. destruct (path_steps _ m z z HpB l1 (t :: l2) s E2) as (H1 & H2).
    cbn [length] in H2. exists (length l2 + length l1). change (S (length l2 + length l1)) with (S (length l2) + length l1).
    eapply steps_app; eauto.
  - split. { intros a Ha. apply filter_In in Ha. tauto. }
    right. intros x y Hx Hy Hr. apply Hxn in Hr. destruct Hr as (a & Ha & Hax). exists a. split; auto.
    apply filter_In. split; auto. apply (overlap_spec St univ Hall). exists y. split; auto.
    apply (img_spec St eq_dec univ Hall). exists x. auto.
Qed.

Lemma blame_ends : forall A xn scc inv,
  (exists s, scc s = true /\ inv s = false) ->
  (forall s, scc s = true -> exists t, scc t = true /\ xn s t = true) ->
  exists blamed, find_livelock_actions St eq_dec univ choose axn (S (S (length univ))) A xn scc inv = Good blamed.
Proof.
  intros A xn scc inv (s0 & Hs0 & Hi0) Hsucc. unfold find_livelock_actions, find_one_cycle.
  assert (Hsub : forall s, pminus St eq_dec univ scc inv s = true -> scc s = true).
  { intros s. rewrite (pminus_spec St eq_dec univ Hall), andb_true_iff. tauto. }
  set (ini := pminus St eq_dec univ scc inv) in *.
  assert (Hini : scc (choose ini) = true).
  { apply Hsub. apply Hch. exists s0. unfold ini. rewrite (pminus_spec St eq_dec univ Hall), Hs0, Hi0. auto. }
  pose proof (walk_spec xn scc (S (S (length univ))) [choose ini]) as H.
  pose proof (walk_ends xn scc Hsucc (S (S (length univ))) [choose ini]) as H'.
  destruct (walk St eq_dec univ choose (S (S (length univ))) xn scc [choose ini]) as [l| |].
  - destruct H as (z & v & -> & _); try discriminate.
    + exact I.
    + intros s [<-|[]]; auto.
    + destruct (existsb _ _); eexists; reflexivity.
  - destruct H; [discriminate|exact I|intros s [<-|[]]; auto].
  - destruct H'; auto; [discriminate|constructor; auto; constructor|intros s [<-|[]]; auto|cbn [length]; lia].
Qed.
End Blame.
