From Coq Require Import List Arith Lia Bool Sorting.Sorted.
From Verif Require Import ConflictModel ConflictSpec.
Import ListNotations.

(** ** Flat sets *)
Lemma memb_spec : forall x s, memb x s = true <-> In x s.
Proof.
  intros. unfold memb. rewrite existsb_exists. split.
  - intros (y & H & E). apply Nat.eqb_eq in E. subst. auto.
  - intros H. exists x. rewrite Nat.eqb_refl. auto.
Qed.

Lemma subseteq_spec : forall a b, subseteq a b = true <-> incl a b.
Proof.
  intros. unfold subseteq. rewrite forallb_forall. unfold incl.
  split; intros H x Hx; specialize (H x Hx); apply memb_spec; auto.
Qed.

Lemma subseteq_false : forall a b, subseteq a b = false <-> ~ incl a b.
Proof.
  intros. rewrite <- subseteq_spec. destruct (subseteq a b); split; congruence.
Qed.

Lemma fs_eqb_spec : forall a b, fs_eqb a b = true <-> a = b.
Proof.
  induction a as [|x a IH]; intros [|y b]; simpl; split; intros H; try discriminate; auto.
  - apply andb_true_iff in H. destruct H as [H1 H2]. apply Nat.eqb_eq in H1. apply IH in H2. congruence.
  - injection H as -> ->. rewrite Nat.eqb_refl. apply IH. auto.
Qed.

Lemma set_mem_spec : forall b ss, set_mem b ss = true <-> In b ss.
Proof.
  intros. unfold set_mem. rewrite existsb_exists. split.
  - intros (y & H & E). apply fs_eqb_spec in E. subst. auto.
  - intros H. exists b. split; auto. apply fs_eqb_spec. auto.
Qed.

Lemma fs_insert_in : forall x s y, In y (fs_insert x s) <-> y = x \/ In y s.
Proof.
  induction s as [|z s IH]; intros y; simpl.
  - split; intros [H|H]; auto.
  - destruct (x <? z) eqn:E1; [simpl; split; intros [H|H]; auto|].
    destruct (Nat.eqb_spec x z) as [->|N]; simpl.
    + split; [intros H; auto|intros [->|H]; auto].
    + rewrite IH. split; [intros [H|[H|H]]; auto|intros [H|[H|H]]; auto].
Qed.

Lemma fs_of_in : forall l y, In y (fs_of l) <-> In y l.
Proof.
  induction l as [|x l IH]; intros y; simpl; [tauto|].
  rewrite fs_insert_in, IH. split; intros [H|H]; auto.
Qed.

Lemma fs_insert_ok : forall x s, set_ok s -> set_ok (fs_insert x s).
Proof.
  induction s as [|z s IH]; intros H; simpl.
  - repeat constructor.
  - inversion H as [|? ? H1 H2]; subst. destruct (Nat.ltb_spec x z).
    + constructor; auto. constructor; auto. eapply Forall_impl; [|exact H2]. simpl. intros; lia.
    + destruct (Nat.eqb_spec x z); auto. constructor; [apply IH; auto|].
      apply Forall_forall. intros y Hy. apply fs_insert_in in Hy. rewrite Forall_forall in H2.
      destruct Hy as [->|Hy]; [lia|auto].
Qed.

Lemma fs_of_ok : forall l, set_ok (fs_of l).
Proof. induction l; simpl; [constructor|apply fs_insert_ok; auto]. Qed.

Lemma fs_of_id : forall s, set_ok s -> fs_of s = s.
Proof.
  induction s as [|x s IH]; intros H; simpl; auto. inversion H as [|? ? H1 H2]; subst.
  rewrite IH by auto. destruct s as [|y s]; auto. simpl. inversion H2; subst.
  apply Nat.ltb_lt in H4. rewrite H4. auto.
Qed.

Lemma ok_ext : forall a b, set_ok a -> set_ok b -> incl a b -> incl b a -> a = b.
Proof.
  induction a as [|x a IH]; intros b Ha Hb H1 H2.
  - destruct b as [|y b]; auto. destruct (H2 y (or_introl eq_refl)).
  - destruct b as [|y b]; [destruct (H1 x (or_introl eq_refl))|].
    inversion Ha as [|? ? A1 A2]; inversion Hb as [|? ? B1 B2]; subst. rewrite Forall_forall in A2, B2.
    assert (x = y).
    { destruct (H1 x (or_introl eq_refl)) as [|Hx]; auto. destruct (H2 y (or_introl eq_refl)) as [|Hy]; auto.
      apply A2 in Hy. apply B2 in Hx. lia. }
    subst y. f_equal. apply IH; auto.
    + intros z Hz. destruct (H1 z (or_intror Hz)) as [<-|]; auto. apply A2 in Hz. lia.
    + intros z Hz. destruct (H2 z (or_intror Hz)) as [<-|]; auto. apply B2 in Hz. lia.
Qed.

Lemma ok_nodup : forall a, set_ok a -> NoDup a.
Proof.
  intros a H. induction H as [|x a Ha IH Hx]; constructor; auto.
  intros Hin. rewrite Forall_forall in Hx. apply Hx in Hin. lia.
Qed.

(** ** Stored sets *)
Lemma conflict_loop_spec : forall ss t, conflict_loop ss t = true <-> rejected ss t.
Proof.
  unfold rejected. induction ss as [|c ss IH]; intros t; simpl.
  - split; [discriminate|intros (b & [] & _)].
  - destruct (subseteq c t) eqn:E.
    + split; auto. intros _. exists c. split; auto. apply subseteq_spec; auto.
    + apply subseteq_false in E. rewrite IH. split.
      * intros (b & Hb & Hi). exists b. auto.
      * intros (b & [<-|Hb] & Hi); [contradiction|]. exists b. auto.
Qed.

Lemma exact_loop_spec : forall ss t, exact_loop ss t = true <-> In t ss.
Proof.
  induction ss as [|c ss IH]; intros t; simpl.
  - split; [discriminate|intros []].
  - destruct (fs_eqb c t) eqn:E.
    + apply fs_eqb_spec in E. subst. split; auto.
    + rewrite IH. split; auto. intros [->|]; auto.
      rewrite (proj2 (fs_eqb_spec t t) eq_refl) in E. discriminate.
Qed.

Lemma set_add_in : forall place ss b s, In s (set_add place ss b) <-> s = b \/ In s ss.
Proof.
  intros. unfold set_add. destruct (set_mem b ss) eqn:E.
  - apply set_mem_spec in E. split; auto. intros [->|]; auto.
  - rewrite in_app_iff. simpl.
    assert (HS : In s ss <-> In s (firstn (place b ss) ss) \/ In s (skipn (place b ss) ss))
      by (rewrite <- in_app_iff, firstn_skipn; tauto).
    rewrite HS. split; [intros [H|[H|H]]; auto|intros [H|[H|H]]; auto].
Qed.

Lemma set_diff_in : forall a b s, In s (set_diff a b) <-> In s a /\ ~ In s b.
Proof.
  intros. unfold set_diff. rewrite filter_In, negb_true_iff, <- (set_mem_spec s b).
  destruct (set_mem s b); split; intros [H1 H2]; split; auto; congruence.
Qed.

(** The scan: what is kept, and when it returns early. *)
Lemma add_scan_spec : forall ss b rest r, add_scan ss b = (rest, r) ->
  incl rest ss /\
  (r = true -> exists a, In a rest /\ incl a b) /\
  (r = false -> forall a, In a ss -> ~ incl a b) /\
  (forall a, In a ss -> In a rest \/ incl b a) /\
  (r = false -> forall a, In a rest -> ~ incl b a).
Proof.
  induction ss as [|a ss IH]; intros b rest r H; simpl in H.
  - injection H as <- <-. split; [apply incl_refl|]. split; [discriminate|].
    split; [intros _ a []|]. split; [intros a []|intros _ a []].
  - destruct (subseteq a b) eqn:E1.
    { injection H as <- <-. apply subseteq_spec in E1. split; [apply incl_refl|].
      split; [intros _; exists a; split; [left|]; auto|]. split; [discriminate|].
      split; [intros x Hx; left; auto|discriminate]. }
    apply subseteq_false in E1.
    destruct (add_scan ss b) as [rest' r'] eqn:ES. destruct (IH b rest' r' ES) as (I1 & I2 & I3 & I4 & I5).
    destruct (subseteq b a) eqn:E2; injection H as <- <-.
    + apply subseteq_spec in E2. split; [intros x Hx; right; auto|]. split; auto.
      split; [intros Hr x [<-|Hx]; auto|]. split; [intros x [<-|Hx]; auto|auto].
    + apply subseteq_false in E2. split; [intros x [->|Hx]; [left; auto|right; auto]|].
      split; [intros Hr; destruct (I2 Hr) as (x & Hx & Hi); exists x; split; [right|]; auto|].
      split; [intros Hr x [<-|Hx]; auto|].
      split; [intros x [<-|Hx]; [left; left; auto|destruct (I4 x Hx); [left; right|right]; auto]|].
      intros Hr x [<-|Hx]; auto.
Qed.

Lemma trim_sets : forall f n s, In s (sets (trim f n)) <-> In s (sets f) /\ (n = 0 \/ length s <= n).
Proof.
  intros f n s. unfold trim. destruct (Nat.eqb_spec n 0) as [->|Hn]; [tauto|].
  simpl. rewrite set_diff_in, filter_In. split.
  - intros [H1 H2]. split; auto. right. destruct (Nat.ltb_spec n (length s)); [exfalso; auto|lia].
  - intros [H1 [H2|H2]]; [contradiction|]. split; auto. intros [_ H]. apply Nat.ltb_lt in H. lia.
Qed.

(** ** Member queries *)
Lemma fuzz_diff_in : forall a b x, In x (fuzz_diff a b) <-> In x a /\ ~ In x b.
Proof.
  intros. unfold fuzz_diff. rewrite filter_In, negb_true_iff, <- (memb_spec x b).
  destruct (memb x b); split; intros [H1 H2]; split; auto; congruence.
Qed.

Lemma uint_add_in : forall s x y, In y (uint_add s x) <-> y = x \/ In y s.
Proof.
  intros. unfold uint_add. destruct (memb x s) eqn:E; simpl.
  - apply memb_spec in E. split; auto. intros [->|]; auto.
  - split; intros [H|H]; auto.
Qed.

Lemma conflict_membs_spec : forall t count ss membs ok ms, Forall set_ok ss ->
  conflict_membs_loop ss t count membs = (ok, ms) ->
  (ok = false <-> rejected ss t) /\
  (ok = true -> forall e, In e ms <-> In e membs \/ (In e count /\ rejected ss (e :: t))).
Proof.
  intros t count. induction ss as [|c ss IH]; intros membs ok ms HO H; simpl in H.
  - injection H as <- <-. split.
    + split; [discriminate|intros (b & [] & _)].
    + intros _ e. split; auto. intros [|[_ (b & [] & _)]]; auto.
  - inversion HO as [|? ? Oc Oss]; subst.
    assert (HN : NoDup (fuzz_diff c t)) by (apply NoDup_filter, ok_nodup; auto).
    unfold subseteq_fuzz in H. destruct (Nat.leb_spec (length (fuzz_diff c t)) 1) as [HL|HL].
    + destruct (fuzz_diff c t) as [|d rest] eqn:ED.
      * injection H as <- <-. split; [|discriminate]. split; auto. intros _. exists c. split; [left; auto|].
        intros x Hx. destruct (in_dec Nat.eq_dec x t); auto. exfalso.
        assert (In x (fuzz_diff c t)) by (apply fuzz_diff_in; auto). rewrite ED in H. destruct H.
      * destruct rest; [|simpl in HL; lia].
        assert (Hd : In d c /\ ~ In d t) by (apply fuzz_diff_in; rewrite ED; left; auto).
        assert (HU : forall x, In x c -> x = d \/ In x t).
        { intros x Hx. destruct (in_dec Nat.eq_dec x t); auto.
          assert (In x (fuzz_diff c t)) by (apply fuzz_diff_in; auto). rewrite ED in H0.
          destruct H0 as [->|[]]; auto. }
        destruct (IH _ _ _ Oss H) as [I1 I2]. split.
        -- rewrite I1. unfold rejected. split.
           ++ intros (b & Hb & Hi). exists b. split; [right|]; auto.
           ++ intros (b & [<-|Hb] & Hi); [exfalso; apply Hd; apply Hi; tauto|]. exists b. auto.
        -- intros Hok e. rewrite (I2 Hok e). split.
           ++ intros [He|[He (b & Hb & Hi)]].
              ** destruct (memb d count) eqn:EM; auto. apply uint_add_in in He.
                 destruct He as [->|]; auto. right. split; [apply memb_spec; auto|].
                 exists c. split; [left; auto|]. intros x Hx. destruct (HU x Hx); [left|right]; auto.
              ** right. split; auto. exists b. split; [right|]; auto.
           ++ intros [He|[He (b & [<-|Hb] & Hi)]].
              ** left. destruct (memb d count); auto. apply uint_add_in. auto.
              ** left. assert (e = d).
                 { destruct (Hi d (proj1 Hd)) as [|]; auto. tauto. }
                 subst e. apply memb_spec in He. rewrite He. apply uint_add_in. auto.
              ** right. split; auto. exists b. auto.
    + destruct (IH _ _ _ Oss H) as [I1 I2].
      assert (H2 : exists d1 d2, d1 <> d2 /\ In d1 c /\ ~ In d1 t /\ In d2 c /\ ~ In d2 t).
      { destruct (fuzz_diff c t) as [|d1 [|d2 rest]] eqn:ED; try (simpl in HL; lia).
        exists d1, d2. inversion HN as [|? ? HN1 HN2]; subst.
        assert (In d1 (fuzz_diff c t)) by (rewrite ED; left; auto).
        assert (In d2 (fuzz_diff c t)) by (rewrite ED; right; left; auto).
        apply fuzz_diff_in in H0, H1. split; [intros ->; apply HN1; left; auto|tauto]. }
      destruct H2 as (d1 & d2 & Hne & A1 & A2 & A3 & A4). split.
      * rewrite I1. unfold rejected. split.
        -- intros (b & Hb & Hi). exists b. split; [right|]; auto.
        -- intros (b & [<-|Hb] & Hi); [exfalso; auto|]. exists b. auto.
      * intros Hok e. rewrite (I2 Hok e). unfold rejected. split.
        -- intros [He|[He (b & Hb & Hi)]]; auto. right. split; auto. exists b. split; [right|]; auto.
        -- intros [He|[He (b & [<-|Hb] & Hi)]]; auto.
           ++ exfalso. destruct (Hi d1 A1) as [<-|]; [|auto]. destruct (Hi d2 A3) as [|]; auto.
           ++ right. split; auto. exists b. auto.
Qed.

Lemma superset_walk_spec : forall count c t membs, set_ok t -> set_ok c -> incl t c ->
  forall e, In e (superset_walk t c count membs) <->
    In e membs \/ (In e count /\ In e c /\ ~ In e t).
Proof.
  intros count. induction c as [|x c IH]; intros t membs Ht Hc Hi e; cbn [superset_walk].
  - split; auto. intros [|(_ & [] & _)]; auto.
  - inversion Hc as [|? ? C1 C2]; subst. rewrite Forall_forall in C2.
    destruct t as [|y t]; [|destruct (Nat.eqb_spec y x) as [->|Hne]]; cbn [negb tl].
    + rewrite IH; auto; [|intros z []]. destruct (memb x count) eqn:EM.
      * apply memb_spec in EM. rewrite uint_add_in. simpl. split.
        -- intros [[->|]|(H1 & H2 & H3)]; auto; right; tauto.
        -- intros [|(H1 & [->|H2] & H3)]; auto; right; tauto.
      * simpl. split; [intros [|(H1 & H2 & H3)]; auto; tauto|].
        intros [|(H1 & [->|H2] & H3)]; auto; try (apply memb_spec in H1; congruence); right; tauto.
    + inversion Ht as [|? ? T1 T2]; subst. rewrite Forall_forall in T2. rewrite IH; auto.
      * simpl. split.
        -- intros [|(H1 & H2 & H3)]; auto. right. split; auto. split; auto. intros [->|]; auto.
           apply C2 in H2. lia.
        -- intros [|(H1 & [->|H2] & H3)]; auto; [exfalso; auto|]. right. tauto.
      * intros z Hz. destruct (Hi z (or_intror Hz)) as [<-|]; auto. apply T2 in Hz. lia.
    + assert (Hxt : ~ In x (y :: t)).
      { intros [->|Hx]; [congruence|]. inversion Ht as [|? ? T1 T2]; subst. rewrite Forall_forall in T2.
        apply T2 in Hx. destruct (Hi y (or_introl eq_refl)) as [|Hy]; [congruence|]. apply C2 in Hy. lia. }
      rewrite IH; auto.
      * destruct (memb x count) eqn:EM.
        -- apply memb_spec in EM. rewrite uint_add_in. split.
           ++ intros [[->|]|(H1 & H2 & H3)]; auto; right; (split; [|split]); auto; simpl; auto.
           ++ intros [|(H1 & [->|H2] & H3)]; auto.
        -- split; [intros [|(H1 & H2 & H3)]; auto; right; (split; [|split]); auto; simpl; auto|].
           intros [|(H1 & [->|H2] & H3)]; auto. apply memb_spec in H1. congruence.
      * intros z Hz. destruct (Hi z Hz) as [<-|]; auto. contradiction.
Qed.

Lemma superset_membs_spec : forall f t count e, Forall set_ok (sets f) -> set_ok t ->
  In e (superset_membs f t count) <->
  In e count /\ ~ In e t /\ exists c, In c (sets f) /\ incl t c /\ In e c.
Proof.
  intros f t count e HO Ht. unfold superset_membs. rewrite fs_of_in.
  assert (HG : forall ss membs, Forall set_ok ss ->
    In e (fold_left (fun membs c => if subseteq t c then superset_walk t c count membs else membs) ss membs) <->
    In e membs \/ (In e count /\ ~ In e t /\ exists c, In c ss /\ incl t c /\ In e c)).
  { induction ss as [|c ss IH]; intros membs Hss; simpl.
    - split; auto. intros [|(_ & _ & c & [] & _)]; auto.
    - inversion Hss; subst. rewrite IH by auto. destruct (subseteq t c) eqn:E.
      + apply subseteq_spec in E. rewrite superset_walk_spec by auto. split.
        * intros [[|(A & B & C)]|(A & B & c' & C & D)]; auto; right; split; auto; split; auto;
            [exists c|exists c']; simpl; auto.
        * intros [|(A & B & c' & [<-|C] & D & F)]; auto. right. split; auto. split; auto. exists c'. auto.
      + apply subseteq_false in E. split.
        * intros [|(A & B & c' & C & D)]; auto. right. split; auto. split; auto. exists c'. split; [right|]; tauto.
        * intros [|(A & B & c' & [<-|C] & D & F)]; auto; [contradiction|]. right. split; auto. split; auto. exists c'. auto. }
  rewrite HG by auto. split; [intros [[]|]; auto|auto].
Qed.

Lemma sat_spec : forall f, antichain (sets f) -> (sat_ck f = false <-> conflict_ck f [] = true).
Proof.
  intros f [ND AC]. unfold conflict_ck. rewrite conflict_loop_spec. unfold rejected, sat_ck. split.
  - destruct (sets f) as [|e [|e' ss]]; try discriminate.
    intros H. destruct e as [|x e]; [|discriminate]. exists []. split; [left; auto|apply incl_refl].
  - intros (b & Hb & Hi). assert (b = []).
    { destruct b as [|x b]; auto. destruct (Hi x (or_introl eq_refl)). }
    subst b. destruct (sets f) as [|e [|e' ss]].
    + destruct Hb.
    + destruct Hb as [->|[]]. auto.
    + exfalso. assert (e = e').
      { rewrite <- (AC [] e); auto; [|left; auto|intros x []]. apply AC; auto; [right; left; auto|intros x []]. }
      subst. inversion ND; subst. apply H1. left. auto.
Qed.

Lemma conflict_mono : forall f s t, conflict_ck f s = true -> incl s t -> conflict_ck f t = true.
Proof.
  intros f s t. unfold conflict_ck. rewrite !conflict_loop_spec. intros (b & Hb & Hi) H.
  exists b. split; auto. eapply incl_tran; eauto.
Qed.

Section Place.
Variable place : fset -> list fset -> nat.
Let add := add_conflict place.

Lemma add_sets : forall f b,
  let '(rest, r) := add_scan (sets f) b in
  sets (add f b) = if r then rest else set_add place rest b.
Proof.
  intros. unfold add, add_conflict. destruct (add_scan (sets f) b) as [rest r]. destruct r; auto.
Qed.

Lemma add_exact : forall f b t, conflict_ck (add f b) t = true <-> conflict_ck f t = true \/ incl b t.
Proof.
  intros f b t. unfold conflict_ck. rewrite !conflict_loop_spec.
  pose proof (add_sets f b) as HA. destruct (add_scan (sets f) b) as [rest r] eqn:E.
  destruct (add_scan_spec _ _ _ _ E) as (I1 & I2 & I3 & I4 & I5). rewrite HA. unfold rejected. split.
  - intros (c & Hc & Hi). destruct r.
    + left. exists c. split; auto.
    + apply set_add_in in Hc. destruct Hc as [->|Hc]; auto. left. exists c. split; auto.
  - intros [(c & Hc & Hi)|Hi].
    + destruct (I4 c Hc) as [Hr|Hb].
      * exists c. split; auto. destruct r; auto. apply set_add_in. auto.
      * destruct r.
        -- destruct (I2 eq_refl) as (a & Ha & Hab). exists a. split; auto.
           eapply incl_tran; [|exact Hi]. eapply incl_tran; eauto.
        -- exists b. split; [apply set_add_in; auto|]. eapply incl_tran; eauto.
    + destruct r.
      * destruct (I2 eq_refl) as (a & Ha & Hab). exists a. split; auto. eapply incl_tran; eauto.
      * exists b. split; auto. apply set_add_in; auto.
Qed.

Lemma adds_exact : forall hist f t,
  conflict_ck (fold_left add hist f) t = true <-> conflict_ck f t = true \/ rejected hist t.
Proof.
  unfold rejected. induction hist as [|b hist IH]; intros f t; simpl.
  - split; auto. intros [|(b & [] & _)]; auto.
  - rewrite IH, add_exact. split.
    + intros [[H|H]|(c & Hc & Hi)]; auto; right; [exists b|exists c]; auto.
    + intros [H|(c & [<-|Hc] & Hi)]; auto. right. exists c. auto.
Qed.

Lemma conflict_empty : forall t, conflict_ck empty_family t = false.
Proof. reflexivity. Qed.

Lemma history_exact : forall hist t,
  conflict_ck (fold_left add hist empty_family) t = true <-> rejected hist t.
Proof. intros. rewrite adds_exact. split; auto. intros [H|]; auto. discriminate. Qed.

(** Antichain *)
Lemma NoDup_insert : forall (A : Type) (l : list A) n x, NoDup l -> ~ In x l ->
  NoDup (firstn n l ++ x :: skipn n l).
Proof.
  intros A l n x Hl Hx. apply (NoDup_Add (a := x) (l := l)); [|auto].
  rewrite <- (firstn_skipn n l) at 1. apply Add_app.
Qed.

Lemma add_antichain : forall f b, antichain (sets f) -> antichain (sets (add f b)).
Proof.
  intros f b [ND AC]. pose proof (add_sets f b) as HA.
  destruct (add_scan (sets f) b) as [rest r] eqn:E.
  destruct (add_scan_spec _ _ _ _ E) as (I1 & I2 & I3 & I4 & I5).
  assert (NR : NoDup rest).
  { clear -E ND. revert rest r E. induction (sets f) as [|a ss IH]; intros rest r E; simpl in E.
    - injection E as <- <-. constructor.
    - inversion ND; subst. destruct (subseteq a b); [injection E as <- <-; auto|].
      destruct (add_scan ss b) as [rest' r'] eqn:ES.
      destruct (add_scan_spec _ _ _ _ ES) as (I1 & _).
      destruct (subseteq b a); injection E as <- <-; [eapply IH; eauto|].
      constructor; [intros Hin; apply H1; auto|eapply IH; eauto]. }
  rewrite HA. destruct r.
  - split; auto.
  - split.
    + unfold set_add. destruct (set_mem b rest) eqn:EM; auto.
      apply NoDup_insert; auto. intros Hin. apply set_mem_spec in Hin. congruence.
    + intros x y Hx Hy Hi. apply set_add_in in Hx, Hy.
      destruct Hx as [->|Hx], Hy as [->|Hy]; auto.
      * exfalso. apply (I5 eq_refl y Hy Hi).
      * exfalso. apply (I3 eq_refl x (I1 x Hx) Hi).
Qed.

Lemma add_incl : forall f b s, In s (sets (add f b)) -> s = b \/ In s (sets f).
Proof.
  intros f b s H. pose proof (add_sets f b) as HA. destruct (add_scan (sets f) b) as [rest r] eqn:E.
  destruct (add_scan_spec _ _ _ _ E) as (I1 & _). rewrite HA in H. destruct r; auto.
  apply set_add_in in H. destruct H; auto.
Qed.

Lemma adds_antichain : forall hist f, antichain (sets f) -> antichain (sets (fold_left add hist f)).
Proof. induction hist; intros; simpl; auto. apply IHhist, add_antichain; auto. Qed.

Lemma adds_incl : forall hist f s, In s (sets (fold_left add hist f)) -> In s hist \/ In s (sets f).
Proof.
  induction hist as [|b hist IH]; intros f s H; simpl in *; auto.
  apply IH in H. destruct H as [|H]; auto. apply add_incl in H. destruct H as [->|]; auto.
Qed.

Lemma empty_antichain : antichain (sets empty_family).
Proof. split; [constructor|intros a b []]. Qed.

Lemma stored_minimal : forall hist s, Forall set_ok hist ->
  In s (sets (fold_left add hist empty_family)) <->
  In s hist /\ forall b, In b hist -> incl b s -> b = s.
Proof.
  intros hist s HO. rewrite Forall_forall in HO.
  pose proof (adds_antichain hist empty_family empty_antichain) as [_ AC].
  assert (HI : forall x, In x (sets (fold_left add hist empty_family)) -> In x hist).
  { intros x Hx. apply adds_incl in Hx. destruct Hx as [|[]]; auto. }
  assert (HC : forall t, rejected hist t -> rejected (sets (fold_left add hist empty_family)) t).
  { intros t Ht. apply history_exact in Ht. apply conflict_loop_spec in Ht. auto. }
  split.
  - intros Hs. split; auto. intros b Hb Hi.
    destruct (HC b) as (c & Hc & Hcb); [exists b; split; auto; apply incl_refl|].
    assert (c = s) by (apply AC; auto; eapply incl_tran; eauto). subst c.
    apply ok_ext; auto.
  - intros [Hs Hm]. destruct (HC s) as (c & Hc & Hcb); [exists s; split; auto; apply incl_refl|].
    assert (c = s) by (apply Hm; auto). subst. auto.
Qed.

(** ** Satisfiability *)
Lemma sat_history : forall hist,
  sat_ck (fold_left add hist empty_family) = false <-> In [] hist.
Proof.
  intros hist. rewrite sat_spec by (apply adds_antichain, empty_antichain).
  rewrite history_exact. unfold rejected. split.
  - intros (b & Hb & Hi). destruct b as [|x b]; auto. destruct (Hi x (or_introl eq_refl)).
  - intros H. exists []. split; auto. apply incl_refl.
Qed.

(** ** Flat encoding *)
Lemma add_flat_flatten : forall ss f fuel, Forall set_ok ss -> length (flatten ss) <= fuel ->
  add_flat place fuel f (flatten ss) = Some (fold_left add ss f).
Proof.
  induction ss as [|s ss IH]; intros f fuel HO HL.
  - destruct fuel; reflexivity.
  - inversion HO; subst.
    change (flatten (s :: ss)) with (length s :: s ++ flatten ss) in *.
    destruct fuel as [|fuel]; [simpl in HL; lia|]. cbn [add_flat].
    rewrite app_length. replace (length s <=? length s + length (flatten ss)) with true
      by (symmetry; apply Nat.leb_le; lia).
    rewrite firstn_app, firstn_all, Nat.sub_diag. cbn [firstn]. rewrite app_nil_r, fs_of_id by auto.
    rewrite skipn_app, skipn_all, Nat.sub_diag. cbn [skipn app fold_left].
    apply IH; auto. simpl in HL. rewrite app_length in HL. lia.
Qed.

Lemma flat_sound : forall f ss, Forall set_ok ss ->
  add_flat_conflicts place f (flatten ss) = Some (fold_left add ss f).
Proof. intros. apply add_flat_flatten; auto. Qed.

(** Adding an antichain to the empty family stores exactly it. *)
Lemma adds_antichain_id : forall ss s, Forall set_ok ss -> antichain ss ->
  In s (sets (fold_left add ss empty_family)) <-> In s ss.
Proof.
  intros ss s HO [ND AC]. rewrite stored_minimal by auto. split; [tauto|].
  intros H. split; auto.
Qed.

Lemma xget_loop_spec : forall ss f rest, Forall set_ok ss ->
  let f' := xget_loop place (length ss) f (flatten ss ++ rest) in
  (forall s, In s (sets f') <-> In s (sets f) \/ In s ss) /\
  (forall e, In e (impossible f') <-> In e (impossible f) \/ In [e] ss) /\
  (NoDup (sets f) -> NoDup (sets f')).
Proof.
  induction ss as [|s ss IH]; intros f rest HO.
  - simpl. split; [intros; tauto|]. split; [intros; tauto|auto].
  - inversion HO; subst.
    change (flatten (s :: ss)) with (length s :: s ++ flatten ss). cbn [length].
    cbn [xget_loop app nth tl]. rewrite <- app_assoc, app_length.
    replace (length s <=? length s + length (flatten ss ++ rest)) with true
      by (symmetry; apply Nat.leb_le; lia).
    rewrite firstn_app, firstn_all, Nat.sub_diag. cbn [firstn]. rewrite app_nil_r, fs_of_id by auto.
    rewrite skipn_app, skipn_all, Nat.sub_diag. cbn [skipn app].
    match goal with |- context [xget_loop place _ ?g _] => destruct (IH g rest H2) as (J1 & J2 & J3) end.
    cbn [sets impossible] in *. split; [|split].
    + intros x. rewrite J1, set_add_in. simpl. split; [intros [[->|]|]; auto|intros [|[<-|]]; auto].
    + intros e. rewrite J2.
      assert (HE : In e (if length s =? 1 then uint_add (impossible f) (nth 0 s 0) else impossible f) <->
                   In e (impossible f) \/ s = [e]).
      { destruct s as [|x [|y s]]; simpl; [split; [auto|intros [|]; [auto|discriminate]]| |
          split; [auto|intros [|]; [auto|discriminate]]].
        unfold uint_add. destruct (memb x (impossible f)) eqn:EM.
        - apply memb_spec in EM. split; auto. intros [|E]; auto. injection E as ->. auto.
        - simpl. split; [intros [->|]; auto|intros [|E]; auto; injection E as ->; auto]. }
      rewrite HE. simpl. tauto.
    + intros ND. apply J3. unfold set_add. destruct (set_mem s (sets f)) eqn:E; auto.
      apply NoDup_insert; auto. intros Hin. apply set_mem_spec in Hin. congruence.
Qed.

(** ** Exchange *)
Fixpoint exch (evs : list event) (sender receiver : family) : family * family :=
  match evs with
  | [] => (sender, receiver)
  | Declare b :: evs' => exch evs' (add sender b) receiver
  | Exchange :: evs' =>
      let '(ss, sender') := flush_new sender in
      exch evs' sender' (fold_left add ss receiver)
  end.

(** Pending: what the receiver lacks is in the record. *)
Definition synced (f0 : list fset) (s r : family) : Prop :=
  (recording s = true ->
     forall t, conflict_ck s t = true -> conflict_ck r t = true \/ rejected (news s) t) /\
  (forall t, conflict_ck r t = true -> rejected f0 t \/ conflict_ck s t = true) /\
  (forall t, rejected f0 t -> conflict_ck r t = true) /\
  (forall b, In b (news s) -> conflict_ck s b = true) /\
  (recording s = false -> news s = []).

Lemma add_news : forall f b, recording (add f b) = recording f /\
  (news (add f b) = news f /\ (recording f = true -> conflict_ck f b = true) \/
   recording f = true /\ news (add f b) = news f ++ [b]).
Proof.
  intros f b. unfold add, add_conflict. destruct (add_scan (sets f) b) as [rest r] eqn:E.
  destruct (add_scan_spec _ _ _ _ E) as (I1 & I2 & _).
  destruct r; simpl; split; auto.
  - left. split; auto. intros _. unfold conflict_ck. apply conflict_loop_spec.
    destruct (I2 eq_refl) as (a & Ha & Hab). exists a. auto.
  - destruct (recording f); [right|left]; split; auto. discriminate.
Qed.

Lemma synced_add : forall f0 s r b, synced f0 s r -> synced f0 (add s b) r.
Proof.
  intros f0 s r b (S1 & S2 & S3 & S4 & S5). destruct (add_news s b) as [N1 N2].
  split; [|split; [|split; [|split]]].
  - intros HR t Ht. rewrite N1 in HR. apply add_exact in Ht. destruct N2 as [[E C]|[_ E]]; rewrite E.
    + apply S1; auto. destruct Ht as [Ht|Ht]; auto. eapply conflict_mono; eauto.
    + destruct Ht as [Ht|Ht].
      * destruct (S1 HR t Ht) as [|(c & Hc & Hi)]; auto. right. exists c. split; auto. apply in_or_app; auto.
      * right. exists b. split; auto. apply in_or_app. right. left. auto.
  - intros t Ht. destruct (S2 t Ht); auto. right. apply add_exact. auto.
  - auto.
  - intros c Hc. apply add_exact. destruct N2 as [[E _]|[_ E]]; rewrite E in Hc; auto.
    apply in_app_iff in Hc. destruct Hc as [|[<-|[]]]; auto. right. apply incl_refl.
  - intros HR. rewrite N1 in HR. destruct N2 as [[E _]|[E _]]; [rewrite E; auto|congruence].
Qed.

Lemma synced_flush : forall f0 s r, synced f0 s r ->
  let '(ss, s') := flush_new s in
  synced f0 s' (fold_left add ss r) /\
  forall t, conflict_ck (fold_left add ss r) t = true <-> rejected f0 t \/ conflict_ck s' t = true.
Proof.
  intros f0 s r (S1 & S2 & S3 & S4 & S5). unfold flush_new.
  assert (HH : forall ss, (forall t, rejected ss t -> conflict_ck s t = true) ->
     (forall t, conflict_ck s t = true -> conflict_ck r t = true \/ rejected ss t) ->
     forall t, conflict_ck (fold_left add ss r) t = true <-> rejected f0 t \/ conflict_ck s t = true).
  { intros ss H1 H2 t. rewrite adds_exact. split.
    - intros [H|H]; [apply S2; auto|right; auto].
    - intros [H|H]; auto. }
  destruct (recording s) eqn:R.
  - assert (HX : forall t, conflict_ck (fold_left add (rev (news s)) r) t = true <-> rejected f0 t \/ conflict_ck s t = true).
    { apply HH.
      - intros t (b & Hb & Hi). apply in_rev in Hb. eapply conflict_mono; [apply S4; eauto|auto].
      - intros t Ht. destruct (S1 eq_refl t Ht) as [|(b & Hb & Hi)]; auto. right. exists b.
        split; auto. rewrite <- in_rev. auto. }
    split; [|exact HX]. split; [|split; [|split; [|split]]].
    + intros _ t Ht. left. apply HX. auto.
    + intros t Ht. apply HX; auto.
    + intros t Ht. apply HX. auto.
    + intros b [].
    + discriminate.
  - assert (HX : forall t, conflict_ck (fold_left add (sets s) r) t = true <-> rejected f0 t \/ conflict_ck s t = true).
    { apply HH; intros t; unfold conflict_ck; rewrite conflict_loop_spec; auto. }
    split; [|exact HX]. split; [|split; [|split; [|split]]].
    + intros _ t Ht. left. apply HX. auto.
    + intros t Ht. apply HX; auto.
    + intros t Ht. apply HX. auto.
    + simpl. rewrite S5 by auto. intros b [].
    + discriminate.
Qed.

Lemma exchange_synced : forall evs f0 s r, synced f0 s r ->
  synced f0 (fst (exch evs s r)) (snd (exch evs s r)).
Proof.
  induction evs as [|[b|] evs IH]; intros f0 s r H; simpl; auto.
  - apply IH, synced_add; auto.
  - pose proof (synced_flush f0 s r H) as HF. destruct (flush_new s) as [ss s']. apply IH. apply HF.
Qed.

Lemma synced_init : forall r, synced (sets r) empty_family r.
Proof.
  intros r. split; [discriminate|]. split; [|split; [|split]].
  - intros t. unfold conflict_ck at 1. rewrite conflict_loop_spec. auto.
  - intros t Ht. apply conflict_loop_spec. auto.
  - intros b [].
  - auto.
Qed.

Lemma exchange_last : forall evs s r,
  exch (evs ++ [Exchange]) s r =
  (let '(s1, r1) := exch evs s r in
   let '(ss, s2) := flush_new s1 in (s2, fold_left add ss r1)).
Proof.
  induction evs as [|[b|] evs IH]; intros s r; simpl.
  - destruct (flush_new s); auto.
  - apply IH.
  - destruct (flush_new s). apply IH.
Qed.

Lemma exchange_sender : forall evs s r t,
  conflict_ck (fst (exch evs s r)) t = true <-> conflict_ck s t = true \/ rejected (declared evs) t.
Proof.
  induction evs as [|[b|] evs IH]; intros s r t; simpl.
  - split; auto. intros [|(b & [] & _)]; auto.
  - rewrite IH, add_exact. unfold rejected. split.
    + intros [[H|H]|(c & Hc & Hi)]; auto; right; [exists b|exists c]; simpl; auto.
    + intros [H|(c & [<-|Hc] & Hi)]; auto. right. exists c. auto.
  - unfold flush_new. destruct (recording s); rewrite IH; unfold conflict_ck; simpl; tauto.
Qed.

Lemma exch_exchange : forall evs s r, Forall set_ok (sets s) -> Forall set_ok (news s) ->
  Forall set_ok (declared evs) -> exchange place evs s r = Some (exch evs s r).
Proof.
  induction evs as [|[b|] evs IH]; intros s r H1 H2 H3; cbn [exchange exch declared] in *; auto.
  - inversion H3; subst. apply IH; auto.
    + apply Forall_forall. intros x Hx. rewrite Forall_forall in H1.
      apply add_incl in Hx. destruct Hx as [->|]; auto.
    + destruct (add_news s b) as [_ [[E _]|[_ E]]]; fold add; rewrite E; auto.
      apply Forall_app. split; auto.
  - unfold flush_new_flat. destruct (flush_new s) as [ss s'] eqn:E.
    assert (HO : Forall set_ok ss /\ Forall set_ok (sets s') /\ Forall set_ok (news s')).
    { unfold flush_new in E. destruct (recording s); injection E as <- <-; simpl; repeat split; auto.
      apply Forall_rev; auto. }
    destruct HO as (O1 & O2 & O3).
    destruct (Nat.eqb_spec (length (flatten ss)) 0) as [EL|EL].
    + destruct ss as [|x ss]; [|simpl in EL; lia]. simpl. apply IH; auto.
    + rewrite flat_sound by auto. apply IH; auto.
Qed.

Lemma exch_complete : forall f0 s0 evs r t, synced f0 s0 r ->
  conflict_ck (snd (exch (evs ++ [Exchange]) s0 r)) t = true <->
  rejected f0 t \/ conflict_ck s0 t = true \/ rejected (declared evs) t.
Proof.
  intros f0 s0 evs r t Hi. rewrite exchange_last.
  pose proof (exchange_synced evs f0 s0 r Hi) as HS.
  pose proof (exchange_sender evs s0 r t) as HD.
  destruct (exch evs s0 r) as [s1 r1]. simpl in HS, HD.
  pose proof (synced_flush f0 s1 r1 HS) as HF.
  assert (HC : forall t, conflict_ck (snd (flush_new s1)) t = conflict_ck s1 t).
  { intros u. unfold flush_new. destruct (recording s1); auto. }
  destruct (flush_new s1) as [ss s2]. destruct HF as [_ HF]. simpl. rewrite HF. simpl in HC.
  rewrite HC, HD. tauto.
Qed.

Lemma declared_app : forall e1 e2, declared (e1 ++ e2) = declared e1 ++ declared e2.
Proof. induction e1 as [|[b|] e1 IH]; intros; simpl; auto. f_equal; auto. Qed.

Lemma exchange_complete : forall evs r, Forall set_ok (declared evs) ->
  exists s' r', exchange place (evs ++ [Exchange]) empty_family r = Some (s', r') /\
  (forall t, conflict_ck s' t = true <-> rejected (declared evs) t) /\
  forall t, conflict_ck r' t = true <-> conflict_ck r t = true \/ rejected (declared evs) t.
Proof.
  intros evs r HO. rewrite exch_exchange; [|constructor|constructor|rewrite declared_app, app_nil_r; auto].
  pose proof (fun t => exchange_sender (evs ++ [Exchange]) empty_family r t) as HD.
  pose proof (fun t => exch_complete (sets r) empty_family evs r t (synced_init r)) as HC.
  destruct (exch (evs ++ [Exchange]) empty_family r) as [s' r'].
  exists s', r'. split; auto. split; intros t.
  - simpl in HD. rewrite HD, declared_app, app_nil_r. split; auto. intros [H|]; auto. discriminate.
  - simpl in HC. rewrite HC. unfold conflict_ck at 2. rewrite conflict_loop_spec.
    split; [intros [|[|]]; auto; discriminate|intros [|]; auto].
Qed.

Lemma exchange_shared_start : forall s0 evs r, Forall set_ok (sets s0) -> Forall set_ok (declared evs) ->
  (forall t, conflict_ck s0 t = true -> conflict_ck r t = true) ->
  exists s' r', exchange place (evs ++ [Exchange]) (flush_drop s0) r = Some (s', r') /\
  forall t, conflict_ck r' t = true <-> conflict_ck r t = true \/ rejected (declared evs) t.
Proof.
  intros s0 evs r HO0 HO Hsh.
  rewrite exch_exchange; [|auto|constructor|rewrite declared_app, app_nil_r; auto].
  assert (HI : synced (sets r) (flush_drop s0) r).
  { split; [|split; [|split; [|split]]].
    - intros _ t Ht. left. apply Hsh. auto.
    - intros t. unfold conflict_ck at 1. rewrite conflict_loop_spec. auto.
    - intros t Ht. apply conflict_loop_spec. auto.
    - intros b [].
    - discriminate. }
  pose proof (fun t => exch_complete (sets r) (flush_drop s0) evs r t HI) as HC.
  destruct (exch (evs ++ [Exchange]) (flush_drop s0) r) as [s' r'].
  exists s', r'. split; auto. intros t. simpl in HC. rewrite HC.
  unfold conflict_ck at 2. rewrite conflict_loop_spec. split.
  - intros [|[H|]]; auto. left. apply conflict_loop_spec. apply Hsh. auto.
  - intros [|]; auto.
Qed.

(** ** Trimming and merging *)
Lemma merge_exact : forall f g t,
  conflict_ck (add_family place f g) t = true <-> conflict_ck f t = true \/ conflict_ck g t = true.
Proof.
  intros f g t. unfold add_family. fold add. rewrite adds_exact. unfold conflict_ck.
  rewrite !conflict_loop_spec. split.
  - intros [H|(b & Hb & Hi)]; auto. apply set_diff_in in Hb. right. exists b. tauto.
  - intros [H|(b & Hb & Hi)]; auto.
    destruct (set_mem b (sets f)) eqn:E.
    + apply set_mem_spec in E. left. exists b. auto.
    + right. exists b. split; auto. apply set_diff_in. split; auto. intros H.
      apply set_mem_spec in H. congruence.
Qed.

(** ** Impossible set *)
Lemma add_impossible_set : forall f b e,
  In e (impossible (add f b)) <->
  In e (impossible f) \/ (b = [e] /\ conflict_ck f b = false).
Proof.
  intros f b e. unfold add, add_conflict. destruct (add_scan (sets f) b) as [rest r] eqn:E.
  destruct (add_scan_spec _ _ _ _ E) as (I1 & I2 & I3 & _).
  assert (HC : conflict_ck f b = r).
  { destruct r.
    - destruct (I2 eq_refl) as (a & Ha & Hab). apply conflict_loop_spec. exists a. split; auto.
    - destruct (conflict_ck f b) eqn:EC; auto. apply conflict_loop_spec in EC.
      destruct EC as (a & Ha & Hab). exfalso. apply (I3 eq_refl a Ha Hab). }
  rewrite HC. destruct r; simpl; [split; [auto|intros [|[_ ?]]; [auto|discriminate]]|].
  destruct b as [|x [|y b]]; simpl; try (split; [auto|intros [|[? _]]; [auto|discriminate]]).
  rewrite uint_add_in. split; [intros [->|]; auto|intros [|[H _]]; auto]. injection H as ->. auto.
Qed.

Lemma impossible_history : forall hist f,
  (forall e, In e (impossible f) -> conflict_ck f [e] = true) ->
  forall e, In e (impossible (fold_left add hist f)) -> conflict_ck (fold_left add hist f) [e] = true.
Proof.
  induction hist as [|b hist IH]; intros f H e; simpl; auto. apply IH.
  intros x Hx. apply add_exact. apply add_impossible_set in Hx. destruct Hx as [Hx|[-> _]]; auto.
  right. apply incl_refl.
Qed.

Lemma impossible_complete : forall hist f,
  (forall e, In [e] (sets f) -> In e (impossible f)) ->
  forall e, In [e] (sets (fold_left add hist f)) -> In e (impossible (fold_left add hist f)).
Proof.
  induction hist as [|b hist IH]; intros f H e; simpl; auto. apply IH.
  intros x Hx. apply add_impossible_set.
  destruct (in_dec (list_eq_dec Nat.eq_dec) [x] (sets f)) as [|Hn]; auto.
  destruct (add_incl _ _ _ Hx) as [E|]; [|contradiction]. right. split; auto.
  destruct (conflict_ck f b) eqn:EC; auto. exfalso. apply Hn.
  pose proof (add_sets f b) as HA. unfold add_conflict in *.
  destruct (add_scan (sets f) b) as [rest r] eqn:ES.
  destruct (add_scan_spec _ _ _ _ ES) as (I1 & I2 & I3 & _). destruct r.
  - rewrite HA in Hx. apply I1. auto.
  - exfalso. apply conflict_loop_spec in EC. destruct EC as (a & Ha & Hab). apply (I3 eq_refl a Ha Hab).
Qed.
End Place.

(** ** Sizes *)
Lemma bump_nth : forall l i j, i < length l ->
  nth j (bump l i) 0 = nth j l 0 + (if j =? i then 1 else 0).
Proof.
  induction l as [|x l IH]; intros i j Hi; simpl in Hi; [lia|].
  destruct i, j; simpl; try lia. apply IH. lia.
Qed.

Lemma sizes_spec : forall ss a j,
  nth j (fold_left (fun a s =>
    let sz := length s in
    let a := if length a <=? sz then a ++ repeat 0 (1 + sz - length a) else a in
    bump a sz) ss a) 0 = nth j a 0 + length (filter (fun s : fset => length s =? j) ss).
Proof.
  induction ss as [|s ss IH]; intros a j; cbn [fold_left]; [simpl; lia|].
  rewrite IH. cbn zeta. set (a' := if length a <=? length s then _ else a).
  assert (Hl : length s < length a').
  { unfold a'. destruct (Nat.leb_spec (length a) (length s)); auto. rewrite app_length, repeat_length. lia. }
  assert (Hn : nth j a' 0 = nth j a 0).
  { unfold a'. destruct (Nat.leb_spec (length a) (length s)); auto.
    destruct (lt_dec j (length a)); [rewrite app_nth1; auto|].
    rewrite app_nth2, nth_repeat by lia. rewrite nth_overflow; auto; lia. }
  rewrite bump_nth by auto. rewrite Hn. simpl. rewrite (Nat.eqb_sym j). destruct (length s =? j); simpl; lia.
Qed.

(** ** Families built by any mix of operations *)
Definition fam_inv (f : family) : Prop :=
  antichain (sets f) /\ Forall set_ok (sets f) /\
  (forall e, In e (impossible f) -> conflict_ck f [e] = true) /\
  (forall e, In [e] (sets f) -> In e (impossible f)).

Lemma inv_adds : forall place hist f, Forall set_ok hist -> fam_inv f -> fam_inv (fold_left (add_conflict place) hist f).
Proof.
  intros place hist f HO (I1 & I2 & I3 & I4). split; [apply adds_antichain; auto|].
  split; [|split; [apply impossible_history; auto|apply impossible_complete; auto]].
  rewrite Forall_forall in *. intros s Hs. apply adds_incl in Hs. destruct Hs; auto.
Qed.

Lemma inv_add_flat : forall place fuel l f g, fam_inv f -> add_flat place fuel f l = Some g -> fam_inv g.
Proof.
  intros place. induction fuel as [|fuel IH]; intros l f g HI H; destruct l as [|n l]; simpl in H; try discriminate.
  - injection H as <-. auto.
  - injection H as <-. auto.
  - destruct (n <=? length l); [|discriminate]. eapply IH; [|exact H].
    apply (inv_adds place [fs_of (firstn n l)]); auto. constructor; auto. apply fs_of_ok.
Qed.

Lemma built_inv : forall place f, built place f -> fam_inv f.
Proof.
  intros place f H. induction H.
  - split; [apply empty_antichain|]. split; [constructor|]. split; intros e [].
  - apply (inv_adds place [b]); auto.
  - unfold add_impossible. apply (inv_adds place [fs_of [e]]); auto. constructor; auto. apply fs_of_ok.
  - unfold add_family. apply inv_adds; auto. destruct IHbuilt2 as (_ & HO & _).
    rewrite Forall_forall in *. intros s Hs. apply set_diff_in in Hs. apply HO. tauto.
  - eapply inv_add_flat; eauto.
  - destruct IHbuilt as ((ND & AC) & I2 & I3 & I4). rewrite Forall_forall in I2.
    split; [split|split; [|split]].
    + unfold trim. destruct (n =? 0); auto. simpl. apply NoDup_filter. auto.
    + intros a b Ha Hb. apply trim_sets in Ha, Hb. apply AC; tauto.
    + apply Forall_forall. intros s Hs. apply trim_sets in Hs. apply I2. tauto.
    + intros e He. assert (HE : impossible (trim f n) = impossible f) by (unfold trim; destruct (n =? 0); auto).
      rewrite HE in He. apply I3 in He. unfold conflict_ck in *. apply conflict_loop_spec in He.
      apply conflict_loop_spec. destruct He as (b & Hb & Hi). exists b. split; auto. apply trim_sets.
      split; auto. destruct n; auto. right. pose proof (NoDup_incl_length (ok_nodup b (I2 b Hb)) Hi).
      simpl in H0. lia.
    + intros e He. assert (HE : impossible (trim f n) = impossible f) by (unfold trim; destruct (n =? 0); auto).
      rewrite HE. apply I4. apply trim_sets in He. tauto.
  - unfold flush_new. destruct (recording f); exact IHbuilt.
  - exact IHbuilt.
Qed.
