(** What revising the action sets does to them: lists of actions, candidates and
    the transition relation of the chosen actions. *)
From Coq Require Import List Arith Bool Lia Permutation.
From Verif Require Import FinLib ReachModel ReachSpec ReachProofs StabModel StabProofs RankModel RankSpec RankProofs
  ConflictModel ConflictSpec ConflictProofs SearchModel SearchSpec SearchProofs.
Import ListNotations.

(** * remove1 *)
Lemma in_remove1 : forall x a l, In x (remove1 a l) -> In x l.
Proof.
  intros x a l. induction l as [|y l IH]; simpl; auto. destruct (y =? a); simpl; intuition.
Qed.
Lemma in_remove1_other : forall x a l, x <> a -> In x l -> In x (remove1 a l).
Proof.
  intros x a l Hx. induction l as [|y l IH]; simpl; auto. destruct (Nat.eqb_spec y a); simpl.
  - intros [->|H]; [contradiction|auto].
  - intros [->|H]; auto.
Qed.
Lemma remove1_gone : forall a l, NoDup l -> ~ In a (remove1 a l).
Proof.
  intros a l. induction l as [|y l IH]; intros H; simpl; auto. inversion H; subst.
  destruct (Nat.eqb_spec y a); [subst; auto|]. intros [X|X]; [contradiction|]. apply IH; auto.
Qed.
Lemma remove1_NoDup : forall a l, NoDup l -> NoDup (remove1 a l).
Proof.
  intros a l. induction l as [|y l IH]; intros H; simpl; auto. inversion H; subst.
  destruct (y =? a); auto. constructor; auto. intros X. apply in_remove1 in X. contradiction.
Qed.

Lemma fold_remove1 : forall dels l, NoDup l ->
  let r := fold_left (fun c a => remove1 a c) dels l in
  NoDup r /\ forall x, In x r <-> In x l /\ ~ In x dels.
Proof.
  induction dels as [|a dels IH]; intros l H; cbv zeta; simpl.
  - split; auto. intros x. tauto.
  - destruct (IH (remove1 a l) (remove1_NoDup a l H)) as (I1 & I2). split; auto. intros x. rewrite I2. split.
    + intros (H1 & H2). split; [apply in_remove1 in H1; auto|]. intros [<-|X]; auto. apply remove1_gone in H1; auto.
    + intros (H1 & H2). split; auto. apply in_remove1_other; auto.
Qed.

Lemma NoDup_snoc : forall (l : list nat) a, NoDup l -> ~ In a l -> NoDup (l ++ [a]).
Proof.
  intros l a H1 H2. apply NoDup_app; auto.
  - constructor; auto. constructor.
  - intros x Hx [<-|[]]. auto.
Qed.

Lemma fold_push : forall adds l, NoDup l ->
  let r := fold_left (fun l a => remove1 a l ++ [a]) adds l in
  NoDup r /\ forall x, In x r <-> In x l \/ In x adds.
Proof.
  induction adds as [|a adds IH]; intros l H; cbv zeta; simpl.
  - split; auto. intros x. tauto.
  - destruct (IH (remove1 a l ++ [a])) as (I1 & I2).
    { apply NoDup_snoc; [apply remove1_NoDup; auto|apply remove1_gone; auto]. }
    split; auto. intros x. rewrite I2, in_app_iff. simpl. split.
    + intros [[H1|[->|[]]]|H1]; auto. apply in_remove1 in H1. auto.
    + intros [H1|[->|H1]]; auto. destruct (Nat.eq_dec x a); [subst; auto|]. left. left. apply in_remove1_other; auto.
Qed.

(** * add_all *)
Section AddAll.
Variable clash : nat -> nat -> bool.

Lemma add_one_fold : forall adds0 adds cs acts dels b, NoDup cs -> NoDup acts ->
  let '(cs', acts', dels', b') := fold_left (add_one clash adds0) adds (cs, acts, dels, b) in
  NoDup cs' /\ NoDup acts' /\
  (forall x, In x cs' <-> In x cs /\ ~ In x adds) /\
  (forall x, In x acts' <-> In x acts \/ In x adds) /\
  incl dels dels' /\
  (forall x, In x dels' -> In x dels \/
     (In x cs /\ ~ In x adds0 /\ exists a, In a adds /\ a <> x /\ clash a x = true)) /\
  (b' = true -> b = true /\ forall x, In x adds -> In x cs).
Proof.
  intros adds0. induction adds as [|a adds IH]; intros cs acts dels b H1 H2; simpl.
  - split; auto. split; auto. split; [tauto|]. split; [tauto|]. split; [apply incl_refl|]. split; [auto|]. tauto.
  - set (trimmed := sminus _ adds0).
    specialize (IH (remove1 a cs) (remove1 a acts ++ [a]) (sor dels trimmed) (b && smem a cs)
                  (remove1_NoDup a cs H1)).
    destruct (fold_left (add_one clash adds0) adds _) as (((cs' & acts') & dels') & b').
    destruct IH as (I1 & I2 & I3 & I4 & I5 & I6 & I7).
    { apply NoDup_snoc; [apply remove1_NoDup; auto|apply remove1_gone; auto]. }
    split; auto. split; auto. split; [|split; [|split; [|split]]].
    + intros x. rewrite I3. split.
      * intros (X1 & X2). split; [apply in_remove1 in X1; auto|]. intros [<-|X]; auto. apply remove1_gone in X1; auto.
      * intros (X1 & X2). split; auto. apply in_remove1_other; auto.
    + intros x. rewrite I4, in_app_iff. simpl. split.
      * intros [[X|[->|[]]]|X]; auto. apply in_remove1 in X. auto.
      * intros [X|[->|X]]; auto. destruct (Nat.eq_dec x a); [subst; auto|]. left. left. apply in_remove1_other; auto.
    + intros x Hx. apply I5. apply in_sor. auto.
    + intros x Hx. apply I6 in Hx. destruct Hx as [Hx|(X1 & X2 & a' & X3 & X4 & X5)].
      * apply in_sor in Hx. destruct Hx as [Hx|Hx]; auto. right. apply in_sminus in Hx. destruct Hx as (X1 & X2).
        apply filter_In in X1. destruct X1 as (X1 & X3). apply andb_true_iff in X3. destruct X3 as (X3 & X4).
        apply negb_true_iff, Nat.eqb_neq in X3. split; [apply in_remove1 in X1; auto|]. split; auto. exists a. auto.
      * right. split; [apply in_remove1 in X1; auto|]. split; auto. exists a'. auto.
    + intros E. destruct (I7 E) as (E1 & E2). apply andb_true_iff in E1. destruct E1 as (E1 & E3). split; auto.
      apply smem_iff in E3. intros x [<-|X]; auto. apply E2 in X. apply in_remove1 in X. auto.
Qed.
End AddAll.

(** * Instances *)
Record shape (I : inst) (p : pst I) : Prop := mkShape {
  sh_acts : NoDup (actions p);
  sh_cands : NoDup (cands p);
  sh_disjoint : forall a, In a (actions p) -> ~ In a (cands p);
  sh_lo : synchronous (sopt I) = false -> forall s t, lo p s t = true <-> moves I (actions p) s t
}.

Section Alone.
Variable place : fset -> list fset -> nat.
Variable clash : nat -> nat -> bool.
Variable I : inst.
Hypothesis Hp : proper I.
Let Hall := pr_all I Hp.

Lemma xn_of_spec : forall A s t, xn_of I A s t = true <-> moves I A s t.
Proof.
  intros A s t. unfold xn_of. rewrite (rtab_spec (St I) (dec I) (univ I) Hall). apply existsb_exists.
Qed.

Lemma lo_add : forall p adds acts, (forall s t, lo p s t = true <-> moves I (actions p) s t) ->
  (forall x, In x acts <-> In x (actions p) \/ In x adds) ->
  forall s t, ror _ (dec I) (univ I) (lo p) (xn_of I adds) s t = true <-> moves I acts s t.
Proof.
  intros p adds acts H1 H2 s t. rewrite (ror_spec _ (dec I) (univ I) Hall), orb_true_iff, H1, xn_of_spec. split.
  - intros [(a & X1 & X2)|(a & X1 & X2)]; exists a; split; auto; apply H2; auto.
  - intros (a & X1 & X2). apply H2 in X1. destruct X1 as [X1|X1]; [left|right]; exists a; auto.
Qed.

(** The result of a successful revision of one instance. *)
Record revised (p : pst I) (adds dels : list nat) (p' : pst I) (a d r : list nat) : Prop := mkRevised {
  rv_shape : shape I p';
  rv_acts : forall x, In x (actions p') <-> In x (actions p) \/ In x adds;
  rv_cands : forall x, In x (cands p') -> In x (cands p) /\ ~ In x adds /\ ~ In x dels;
  rv_a : incl a (cands p');
  rv_d : incl d (cands p');
  rv_r : incl r d;
  rv_partial : no_partial p' = no_partial p;
  rv_conflict : no_conflict p' = no_conflict p
}.

Lemma light_revised : forall p adds dels p' a d r, shape I p ->
  alone_light I p adds dels = Good (p', a, d, r) -> revised p adds dels p' a d r.
Proof.
  intros p adds dels p' a d r [S1 S2 S3 S4]. unfold alone_light.
  destruct (fold_push adds (actions p) S1) as (F1 & F2).
  destruct (fold_remove1 adds (cands p) S2) as (F3 & F4).
  destruct (fold_remove1 dels _ F3) as (F5 & F6).
  set (acts := fold_left (fun l a => remove1 a l ++ [a]) adds (actions p)) in *.
  set (cs0 := fold_left (fun l a => remove1 a l) adds (cands p)) in *.
  set (cs := fold_left (fun l a => remove1 a l) dels cs0) in *.
  destruct (negb (is_empty cs) || _); [|discriminate].
  intros E. injection E as <- <- <- <-. split; cbn [actions cands lo no_partial no_conflict]; auto.
  - split; cbn [actions cands lo]; auto.
    + intros x Hx Hc. apply F6 in Hc. destruct Hc as (Hc & _). apply F4 in Hc. destruct Hc as (Hc & Hn).
      apply F2 in Hx. destruct Hx; auto. apply (S3 x); auto.
    + intros Hs. apply lo_add; auto.
  - intros x Hx. apply F6 in Hx. destruct Hx as (Hx & H1). apply F4 in Hx. tauto.
  - intros x [].
  - intros x [].
  - apply incl_refl.
Qed.

Lemma membs_count : forall ss t count membs ok ms,
  conflict_membs_loop ss t count membs = (ok, ms) -> forall x, In x ms -> In x membs \/ In x count.
Proof.
  induction ss as [|c ss IH]; intros t count membs ok ms H x Hx; simpl in H.
  - injection H as <- <-. auto.
  - destruct (subseteq_fuzz c t 1); [|apply (IH _ _ _ _ _ H x Hx)].
    destruct (fuzz_diff c t) as [|e l]; [injection H as <- <-; auto|].
    apply (IH _ _ _ _ _ H) in Hx. destruct Hx as [Hx|Hx]; auto. destruct (memb e count) eqn:E; auto.
    apply uint_add_in in Hx. destruct Hx as [->|]; auto. right. apply memb_spec. auto.
Qed.

Lemma check_forward_fields : forall f p p' a d r, 
  (forall i, incl (dl_cands _ (nth i (ranks p) (dl0 _))) (cands p)) ->
  check_forward I f p = Good (p', a, d, r) ->
  actions p' = actions p /\ lo p' = lo p /\ hi p' = hi p /\ dead p' = dead p /\ hinv p' = hinv p /\
  no_partial p' = no_partial p /\ no_conflict p' = no_conflict p /\
  (cands p' = cands p \/ (cands p' = [] /\ a = [] /\ d = [])) /\
  incl a (cands p) /\ incl d (cands p) /\ incl r d.
Proof.
  intros f p p' a d r Hr. unfold check_forward. destruct (length (ranks p) <=? 1).
  - destruct (sat _ _ (dead p)); [discriminate|]. destruct (conflict_ck f _); [discriminate|].
    intros E. injection E as <- <- <- <-. cbn. repeat (split; auto); intros x [].
  - destruct (conflict_membs f _ _ _) as ([|] & ms) eqn:Em; [|discriminate].
    intros E. injection E as <- <- <- <-. do 7 (split; [reflexivity|]). split; [auto|]. split; [|split].
    + apply Hr.
    + intros x Hx. apply in_sor in Hx. destruct Hx as [Hx|Hx].
      * rewrite fold_sadd_in in Hx. apply filter_In in Hx. tauto.
      * apply (membs_count _ _ _ _ _ _ Em) in Hx. destruct Hx as [[]|Hx]. rewrite fs_of_in in Hx. auto.
    + intros x Hx. rewrite fold_sadd_in in Hx. apply in_sor. auto.
Qed.

Lemma rank_incl : forall guard cs d i,
  incl (dl_cands _ (nth i (rank_deadlocks (St I) (dec I) (univ I) guard cs d) (dl0 _))) cs.
Proof.
  intros guard cs d i x Hx. destruct (rank_deadlocks_exact (St I) (dec I) (univ I) Hall guard cs d) as (H & _).
  apply (rk_cands _ _ _ _ _ H) in Hx. tauto.
Qed.

Lemma full_revised : forall f p adds dels f' p' a d r, shape I p ->
  alone_full place clash I f p adds dels = (f', Good (p', a, d, r)) -> f' = f /\ revised p adds dels p' a d r.
Proof.
  intros f p adds dels f' p' a d r [S1 S2 S3 S4]. unfold alone_full, add_all.
  pose proof (add_one_fold clash adds adds (cands p) (actions p) dels true S2 S1) as H.
  destruct (fold_left (add_one clash adds) adds _) as (((cs & acts) & dels') & all_in).
  destruct H as (H1 & H2 & H3 & H4 & H5 & H6 & H7).
  destruct (negb (is_empty (sand adds dels'))); [discriminate|].
  destruct (synchronous (sopt I) && _) eqn:Es; [discriminate|].
  set (l := if synchronous (sopt I) then _ else _).
  set (cs' := fold_left _ dels' cs). destruct (fold_remove1 dels' cs H1) as (F1 & F2). fold cs' in F1, F2.
  set (h := rminus _ _ _ _ _).
  destruct (lo_cycles I acts l (hinv p)) as [scc| |]; try discriminate.
  destruct (negb (subset (St I) (univ I) scc _)).
  { destruct (negb (probabilistic _ (sysm I)) && _); [|discriminate].
    destruct (find_livelock_actions _ _ _ _ _ _ _ _ _ _); discriminate. }
  intros E. injection E as <- E. split; auto. revert E. unfold alone_tail.
  destruct (shadow_ck _ _ _ _ _ _ _ _ _) as [[| |hinv1]|]; try discriminate.
  destruct (negb (subset _ _ hinv1 (hinv p))); [discriminate|]. cbv zeta.
  destruct (negb (subset _ _ (unresolved_states I hinv1 l) _)); [discriminate|].
  destruct (weak_convergence_ck _ _ _ _ _ _ _ _) as [([|] & n)|]; try discriminate.
  intros E. apply check_forward_fields in E.
  2:{ intros i. cbn [ranks cands]. apply rank_incl. }
  cbn [actions cands lo hi dead hinv no_partial no_conflict] in E.
  destruct E as (E1 & E2 & E3 & E4 & E5 & E6 & E7 & E8 & E9 & E10 & E11).
  assert (C : forall x, In x (cands p') -> In x cs').
  { intros x Hx. destruct E8 as [E8|(E8 & _)]; rewrite E8 in Hx; [auto|destruct Hx]. }
  split; auto.
  - split; auto.
    + rewrite E1. auto.
    + destruct E8 as [E8|(E8 & _)]; rewrite E8; [auto|constructor].
    + intros x Hx Hc. rewrite E1 in Hx. apply C in Hc. apply F2 in Hc. destruct Hc as (Hc & _).
      apply H3 in Hc. destruct Hc as (Hc & Hn). apply H4 in Hx. destruct Hx; auto. apply (S3 x); auto.
    + intros Hs. rewrite E1, E2. unfold l. rewrite Hs. apply lo_add; auto.
  - intros x. rewrite E1. auto.
  - intros x Hx. apply C, F2 in Hx. destruct Hx as (Hx & X1). apply H3 in Hx. destruct Hx as (Hx & X2).
    split; auto.
  - destruct E8 as [E8|(E8 & -> & _)]; [rewrite E8; auto|intros x []].
  - destruct E8 as [E8|(E8 & _ & ->)]; [rewrite E8; auto|intros x []].
Qed.

Lemma alone_revised : forall f p adds dels f' p' a d r, shape I p ->
  alone place clash I f p adds dels = (f', Good (p', a, d, r)) -> f' = f /\ revised p adds dels p' a d r.
Proof.
  intros f p adds dels f' p' a d r Hs. unfold alone. destruct (no_partial p).
  - intros E. injection E as <- E. split; auto. apply light_revised; auto.
  - apply full_revised. auto.
Qed.
End Alone.

Lemma init_shape : forall I, NoDup (candidates0 I) -> shape I (init I).
Proof.
  intros I H. unfold init. split; cbn [actions cands lo]; auto.
  - constructor.
  - intros _ s t. unfold rfalse. split; [discriminate|]. intros (a & [] & _).
Qed.
