(** Properties C37, C38 and C56-C59: the formula layer. *)
From Coq Require Import List Arith Bool Lia.
From Verif Require Import FinLib FmlaModel FmlaSpec FmlaProofs FmlaProofs2 FmlaProofs3 FmlaProofs4.
Import ListNotations.

(** ** C37 *)
Theorem C37_operations_pointwise : forall a b e,
  eval (not_PFmla a) e = negb (eval a e) /\
  eval (and_PFmla a b) e = eval a e && eval b e /\
  eval (or_PFmla a b) e = eval a e || eval b e /\
  eval (nimp_PFmla a b) e = eval a e && negb (eval b e) /\
  eval (xnor_PFmla a b) e = eqb (eval a e) (eval b e) /\
  eval (xor_PFmla a b) e = xorb (eval a e) (eval b e).
Proof. intros; rewrite eval_not, eval_and, eval_or, eval_nimp, eval_xnor, eval_xor; auto 10. Qed.
Print Assumptions C37_operations_pointwise.

Theorem C37_checks_exact : forall doms, inhabited doms -> forall g h,
  (tautology_ck doms g = true <-> forall a i p, ok doms a -> ok doms i -> ok doms p -> meaning g a i p) /\
  (sat_ck doms g = true <-> exists a i p, ok doms a /\ ok doms i /\ ok doms p /\ meaning g a i p) /\
  (equiv_ck doms g h = true <-> same doms g h) /\
  (subseteq_ck doms g h = true <->
     forall a i p, ok doms a -> ok doms i -> ok doms p -> meaning g a i p -> meaning h a i p) /\
  (overlap_ck doms g h = true <->
     exists a i p, ok doms a /\ ok doms i /\ ok doms p /\ meaning g a i p /\ meaning h a i p).
Proof.
  intros doms INH g h. split; [apply tautology_iff; auto|]. split; [apply sat_iff; auto|].
  split; [rewrite equiv_iff, same_eval by auto; tauto|]. split; [apply subseteq_iff; auto|apply overlap_iff; auto].
Qed.
Print Assumptions C37_checks_exact.

(** The answers only depend on the meaning of the operands. *)
Theorem C37_representation_independent : forall doms, inhabited doms -> forall a a' b b',
  same doms a a' -> same doms b b' ->
  same doms (not_PFmla a) (not_PFmla a') /\
  same doms (and_PFmla a b) (and_PFmla a' b') /\ same doms (or_PFmla a b) (or_PFmla a' b') /\
  same doms (nimp_PFmla a b) (nimp_PFmla a' b') /\ same doms (xnor_PFmla a b) (xnor_PFmla a' b') /\
  same doms (xor_PFmla a b) (xor_PFmla a' b') /\
  tautology_ck doms a = tautology_ck doms a' /\ sat_ck doms a = sat_ck doms a' /\
  equiv_ck doms a b = equiv_ck doms a' b' /\ subseteq_ck doms a b = subseteq_ck doms a' b' /\
  overlap_ck doms a b = overlap_ck doms a' b'.
Proof.
  intros doms INH a a' b b' HA HB. pose proof HA as EA. pose proof HB as EB. rewrite same_eval in EA, EB.
  do 6 (split; [apply same_eval; intros x i p X I P;
    rewrite ?eval_not, ?eval_and, ?eval_or, ?eval_nimp, ?eval_xnor, ?eval_xor, ?(EA x i p), ?(EB x i p) by auto; auto|]).
  repeat split; apply iff_eqb.
  - rewrite !tautology_iff by auto. split; intros H x i p X I P; specialize (H x i p X I P); cbv beta in *; rewrite EA in * by auto; auto.
  - rewrite !sat_iff by auto. split; intros (x & i & p & X & I & P & H); exists x, i, p; rewrite EA in * by auto; auto.
  - rewrite !equiv_iff by auto. split; intros H x i p X I P; specialize (H x i p X I P); cbv beta in *; rewrite EA, EB in * by auto; auto.
  - rewrite !subseteq_iff by auto. split; intros H x i p X I P; specialize (H x i p X I P); cbv beta in *; rewrite EA, EB in * by auto; auto.
  - rewrite !overlap_iff by auto. split; intros (x & i & p & X & I & P & H); exists x, i, p; rewrite EA, EB in * by auto; auto.
Qed.
Print Assumptions C37_representation_independent.

(** Two variables with two and three values.  "x0 = 0 or x0 = 1" has a context
    but means the constant true. *)
Notation D := [2; 3].
Lemma D_inhabited : inhabited D.
Proof. repeat constructor. Qed.
Definition full : fmla := or_PFmla (eqc_PFmlaVbl D 0 0) (eqc_PFmlaVbl D 0 1).
Definition none : fmla := and_PFmla (eqc_PFmlaVbl D 0 0) (eqc_PFmlaVbl D 0 1).

Example C37_example : inhabited D /\ full <> Cst true /\ same D full (Cst true) /\ none <> Cst false /\ same D none (Cst false).
Proof.
  split; [apply D_inhabited|]. split; [discriminate|]. split; [|split; [discriminate|]].
  - apply (proj1 (proj1 (proj2 (proj2 (C37_checks_exact D D_inhabited full (Cst true)))))). reflexivity.
  - apply (proj1 (proj1 (proj2 (proj2 (C37_checks_exact D D_inhabited none (Cst false)))))). reflexivity.
Qed.

(** ** C38 *)
Theorem C38_image_exact_partial : forall doms X Q, trans_fmla doms X -> state_fmla doms Q ->
  ~ const_true_on_empty doms X Q ->
  forall s, ok doms s ->
  (holds (img1_PFmla doms X Q) s <-> exists r, ok doms r /\ steps X r s /\ holds Q r) /\
  (holds (pre1_PFmla doms X Q) s <-> exists t, ok doms t /\ steps X s t /\ holds Q t).
Proof. intros; split; [apply img1_state|apply pre1_state]; auto. Qed.
Print Assumptions C38_image_exact_partial.

(** The excluded case is wrong for every state: an empty set with a context has
    every state in its image and pre-image. *)
Theorem C38_constant_true_relation_refuted : forall doms X Q, const_true_on_empty doms X Q ->
  forall s, ok doms s ->
  holds (img1_PFmla doms X Q) s /\ holds (pre1_PFmla doms X Q) s /\
  ~ (exists r, ok doms r /\ steps X r s /\ holds Q r) /\ ~ (exists t, ok doms t /\ steps X s t /\ holds Q t).
Proof.
  intros doms X Q (-> & (q & ->) & E) s S. split; [reflexivity|]. split; [reflexivity|].
  split; intros (r & R & _ & H); apply (E r R H).
Qed.
Print Assumptions C38_constant_true_relation_refuted.

Lemma eqc_state_fmla : forall doms v x, v < length doms -> state_fmla doms (eqc_PFmlaVbl doms v x).
Proof. intros doms v x V. apply state_of_eval. intros a i p A I P. rewrite !(ev_eqc doms) by auto. auto. Qed.

Lemma img_eq_trans_fmla : forall doms u v, u < length doms -> v < length doms -> trans_fmla doms (img_eq_PFmlaVbl doms u v).
Proof. intros doms u v U V. apply trans_of_eval. intros a i p A I P. rewrite !(ev_img_eq doms) by auto. auto. Qed.

Lemma and_state_fmla : forall doms a b, state_fmla doms a -> state_fmla doms b -> state_fmla doms (and_PFmla a b).
Proof.
  intros doms a b A B. apply state_of_eval. intros x i p X I P. rewrite !eval_and, (state_eval doms a A), (state_eval doms b B); auto.
Qed.

Lemma none_empty : const_true_on_empty D (Cst true) none.
Proof.
  unfold const_true_on_empty. split; [auto|]. split; [eexists; reflexivity|].
  intros s S H. unfold holds, meaning, none in H. rewrite eval_and, !(ev_eqc D) in H by (auto; simpl; lia).
  apply andb_true_iff in H as [H1 H2]. apply Nat.eqb_eq in H1, H2. congruence.
Qed.

Example C38_example :
  trans_fmla D (img_eq_PFmlaVbl D 1 0) /\ state_fmla D (eqc_PFmlaVbl D 0 1) /\
  ~ const_true_on_empty D (img_eq_PFmlaVbl D 1 0) (eqc_PFmlaVbl D 0 1) /\
  const_true_on_empty D (Cst true) none.
Proof.
  split; [apply img_eq_trans_fmla; simpl; lia|]. split; [apply eqc_state_fmla; simpl; lia|].
  split; [intros (E & _); discriminate|]. apply none_empty.
Qed.

(** ** C56 *)
Theorem C56_variable_comparisons : forall doms u v x, u < length doms -> v < length doms ->
  forall a i p, ok doms a -> ok doms i -> ok doms p ->
  (meaning (eqc_PFmlaVbl doms v x) a i p <-> nth v p 0 = x) /\
  (meaning (eq_PFmlaVbl doms u v) a i p <-> nth u p 0 = nth v p 0) /\
  (meaning (img_eqc_PFmlaVbl doms v x) a i p <-> nth v i 0 = x mod nth v doms 0) /\
  (meaning (img_eq_PFmlaVbl doms u v) a i p <-> nth u i 0 = nth v p 0 mod nth u doms 0) /\
  (meaning (img_eq_img_PFmlaVbl doms u v) a i p <-> nth u i 0 = nth v i 0 mod nth u doms 0).
Proof.
  intros doms u v x U V a i p A I P. unfold meaning.
  rewrite ev_eqc, ev_eq, ev_img_eqc, ev_img_eq, ev_img_eq_img by auto. rewrite !Nat.eqb_eq. unfold domsz. tauto.
Qed.
Print Assumptions C56_variable_comparisons.

(** In particular assigning a variable to one with at least as many values
    copies the value, and comparing a variable with a constant outside its
    domain is false while assigning such a constant wraps around. *)
Theorem C56_assignment_between_equal_domains : forall doms u v, u < length doms -> v < length doms ->
  nth v doms 0 <= nth u doms 0 ->
  forall s t, ok doms s -> ok doms t -> (steps (img_eq_PFmlaVbl doms u v) s t <-> nth u t 0 = nth v s 0).
Proof.
  intros doms u v U V L s t S T. unfold steps. 
  destruct (C56_variable_comparisons doms u v 0 U V s t s S T S) as (_ & _ & _ & E & _). rewrite E.
  rewrite Nat.mod_small; [tauto|]. pose proof (ok_nth doms s v S V). lia.
Qed.
Print Assumptions C56_assignment_between_equal_domains.

Example C56_example : ok D [1; 2] /\ ok D [0; 0] /\ steps (img_eq_PFmlaVbl D 0 1) [1; 2] [0; 0].
Proof. split; [repeat constructor|]. split; [repeat constructor|]. reflexivity. Qed.

(** ** C57 *)
Lemma nth_zeros : forall (l : list nat) v, nth v (map (fun _ => 0) l) 0 = 0.
Proof. induction l; intros [|v]; cbn; auto. Qed.

(** A picked state satisfies the formula and is lexicographically least among
    the values of the listed variables. *)
Theorem C57_state_of_least : forall doms, inhabited doms -> forall g ids vals,
  Forall (fun v => v < length doms) ids ->
  (exists a i p, ok doms a /\ ok doms i /\ ok doms p /\ meaning g a i p) ->
  state_of_PFmla doms g ids = Some vals ->
  (exists a i p, ok doms a /\ ok doms i /\ ok doms p /\ meaning g a i p /\ values ids p = vals) /\
  (forall a i p, ok doms a -> ok doms i -> ok doms p -> meaning g a i p -> lex_le vals (values ids p)).
Proof.
  intros doms INH g ids vals W (a & i & p & A & I & P & H) E.
  destruct g as [[]|f]; cbn [state_of_PFmla] in E; [| discriminate|]; injection E as E.
  - subst vals. split.
    + exists (map (fun _ => 0) doms), (map (fun _ => 0) doms), (map (fun _ => 0) doms).
      pose proof (zero_ok doms INH). do 3 (split; [auto|]). split; [reflexivity|].
      unfold values. apply map_ext. intro v. apply nth_zeros.
    + intros a' i' p' A' I' P' _. clear -W. unfold values. induction ids as [|v ids IH]; cbn [map]; [constructor|].
      inversion W; subst. destruct (nth v p' 0); [apply lex_eq; auto|apply lex_lt; [lia|rewrite !map_length; auto]].
  - pose proof (pick_loop_spec doms INH (Mdd f) ids (Cst true) W) as L.
    destruct (pick_loop doms (Mdd f) (Cst true) ids) as [vals' c']. cbn [fst] in E. subst vals'.
    destruct L as (_ & (a' & i' & p' & A' & I' & P' & C & G) & EV & MIN).
    { exists a, i, p. repeat split; auto. }
    split.
    + exists a', i', p'. apply EV in C; auto. destruct C as [_ C]. do 4 (split; [auto|]). exact C.
    + intros x y z X Y Z M. apply (MIN x y z); auto.
Qed.
Print Assumptions C57_state_of_least.

(** Picking from a satisfiable formula gives exactly one current state, one in
    which the formula is satisfiable. *)
Theorem C57_pick_pre_single_state : forall doms, inhabited doms -> forall g r,
  pick_pre_PFmla doms g = Some r ->
  (exists a i p, ok doms a /\ ok doms i /\ ok doms p /\ meaning g a i p) ->
  exists s, ok doms s /\
    (forall a i p, ok doms a -> ok doms i -> ok doms p -> (meaning r a i p <-> p = s)) /\
    (exists a i, ok doms a /\ ok doms i /\ meaning g a i s) /\
    (forall a i p, ok doms a -> ok doms i -> ok doms p -> meaning g a i p -> lex_le s p).
Proof.
  intros doms INH g r E (a & i & p & A & I & P & H).
  destruct g as [[]|f]; cbn [pick_pre_PFmla] in E; [discriminate|discriminate H|]; injection E as E.
  pose proof (pick_loop_spec doms INH (Mdd f) (all_ids doms) (Cst true) (wf_all doms)) as L.
  destruct (pick_loop doms (Mdd f) (Cst true) (all_ids doms)) as [vals c']. cbn [snd] in E. subst c'.
  destruct L as (_ & (a' & i' & p' & A' & I' & P' & C & G) & EV & MIN).
  { exists a, i, p. repeat split; auto. }
  assert (VID : forall s, ok doms s -> values (all_ids doms) s = s).
  { intros s S. unfold values, all_ids. rewrite <- (ok_length doms s S). clear.
    induction s as [|x s IH]; auto. cbn [length seq map nth]. f_equal. rewrite <- seq_shift, map_map. exact IH. }
  apply EV in C; auto. destruct C as [_ C]. rewrite VID in C by auto. subst vals.
  exists p'. split; [auto|]. split; [|split; [exists a', i'; auto|]].
  - intros x y z X Y Z. unfold meaning. rewrite EV by auto. rewrite VID by auto. cbn [eval]. tauto.
  - intros x y z X Y Z M. specialize (MIN x y z X Y Z eq_refl M). rewrite VID in MIN by auto. auto.
Qed.
Print Assumptions C57_pick_pre_single_state.

(** Without a satisfying state the result is not empty: it is the state of all
    largest values. *)
Theorem C57_pick_pre_of_nothing_refuted :
  exists g r, (forall s, ok D s -> ~ holds g s) /\ pick_pre_PFmla D g = Some r /\ ok D [1; 2] /\ holds r [1; 2].
Proof.
  exists none. eexists. split; [|split; [reflexivity|split; [repeat constructor|reflexivity]]].
  intros s S H. apply (proj2 (proj2 none_empty) s S H).
Qed.
Print Assumptions C57_pick_pre_of_nothing_refuted.

(** Writing a state as a formula and reading it back. *)
Theorem C57_of_state_exact : forall doms st ids, Forall (fun v => v < length doms) ids -> length st = length ids ->
  forall s t, ok doms s -> ok doms t ->
  (holds (of_state doms st ids) s <-> values ids s = st) /\
  (Forall2 (fun v x => x < nth v doms 0) ids st -> (steps (of_img_state doms st ids) s t <-> values ids t = st)).
Proof.
  intros doms st ids W L s t S T. split; [apply (ev_of_state doms); auto|].
  intro R. unfold steps, meaning. rewrite (ev_of_img_state doms) by auto.
  replace (map (fun vx => snd vx mod domsz doms (fst vx)) (combine ids st)) with st; [tauto|].
  clear -R. induction R; cbn; auto. f_equal; auto. symmetry; apply Nat.mod_small; auto.
Qed.
Print Assumptions C57_of_state_exact.

Example C57_example :
  inhabited D /\
  state_of_PFmla D (nimp_PFmla (eqc_PFmlaVbl D 0 1) (eqc_PFmlaVbl D 1 0)) [0; 1] = Some [1; 1] /\
  (exists r, pick_pre_PFmla D (nimp_PFmla (eqc_PFmlaVbl D 0 1) (eqc_PFmlaVbl D 1 0)) = Some r) /\
  holds (nimp_PFmla (eqc_PFmlaVbl D 0 1) (eqc_PFmlaVbl D 1 0)) [1; 2].
Proof. split; [apply D_inhabited|]. split; [reflexivity|]. split; [eexists; reflexivity|reflexivity]. Qed.

(** ** C58 *)
Theorem C58_relation_algebra : forall doms X Y, trans_fmla doms X -> trans_fmla doms Y ->
  forall P Q, state_fmla doms P -> state_fmla doms Q ->
  forall s t, ok doms s -> ok doms t ->
  (holds (pre_PFmla doms X) s <-> exists u, ok doms u /\ steps X s u) /\
  (holds (img_PFmla doms X) t <-> exists u, ok doms u /\ steps X u t) /\
  (steps (dotjoin_PFmla doms X Y) s t <-> exists u, ok doms u /\ steps X s u /\ steps Y u t) /\
  (steps (inverse_PFmla doms X) s t <-> steps X t s) /\
  (steps (as_img_PFmla doms P) s t <-> holds P t) /\
  (steps (cross_PFmla doms P Q) s t <-> holds P s /\ holds Q t) /\
  (steps (img_as_img_PFmla doms X) s t <-> exists u, ok doms u /\ steps X u t).
Proof.
  intros doms X Y TX TY P Q SP SQ s t S T.
  split; [apply pre_state; auto|]. split; [apply img_state; auto|]. split; [apply dotjoin_state; auto|].
  split; [apply inverse_state; auto|]. split; [apply as_img_state; auto|]. split; [apply cross_state; auto|].
  unfold steps, meaning. rewrite ev_img_as_img by auto.
  split; intros (u & U & H); exists u; (split; [auto|]); [apply (TX s u t u)|apply (TX u s t u)]; auto.
Qed.
Print Assumptions C58_relation_algebra.

Theorem C58_quantification : forall doms X l c a i p, Forall (fun v => v < length doms) l ->
  ok doms a -> ok doms i -> ok doms p ->
  (meaning (smooth_vbls doms X l c) a i p <->
   exists a' i' p', ok doms a' /\ ok doms i' /\ ok doms p' /\ meaning X a' i' p' /\
     match c with
     | Pre => a' = a /\ i' = i /\ agree_off doms l p' p
     | Img => a' = a /\ agree_off doms l i' i /\ p' = p
     | AllCopies => agree_off doms l a' a /\ agree_off doms l i' i /\ agree_off doms l p' p
     end).
Proof.
  intros doms X l c a i p W A I P. unfold meaning. rewrite (ev_smooth_vbls doms) by auto.
  split; intros (a' & i' & p' & H); exists a', i', p'; destruct c; tauto.
Qed.
Print Assumptions C58_quantification.

Theorem C58_renaming : forall doms X news olds, NoDup olds -> length news = length olds ->
  Forall (fun v => v < length doms) news ->
  forall a i p a' i' p', ok doms a -> ok doms i -> ok doms p -> ok doms a' -> ok doms i' -> ok doms p' ->
  renamed doms news olds a a' -> renamed doms news olds i i' -> renamed doms news olds p p' ->
  (meaning (subst_vbls X news olds) a i p <-> meaning X a' i' p').
Proof.
  intros. unfold meaning. rewrite (subst_eval doms X news olds a i p a' i' p') by auto. tauto.
Qed.
Print Assumptions C58_renaming.

(** Moving the listed variables between the current and the next copy. *)
Theorem C58_renaming_copies : forall doms X l, Forall (fun v => v < length doms) l ->
  forall a i p q, ok doms a -> ok doms i -> ok doms p -> ok doms q ->
  ((forall k, In k l -> nth k q 0 = nth k i 0) -> agree_off doms l q p ->
     (meaning (subst1_vbls X l true) a i p <-> meaning X a i q)) /\
  ((forall k, In k l -> nth k q 0 = nth k p 0) -> agree_off doms l q i ->
     (meaning (subst1_vbls X l false) a i p <-> meaning X a q p)).
Proof.
  intros doms X l W a i p q A I P Q. split; intros H1 H2; unfold meaning.
  - rewrite (subst1_eval doms X l true a i p q) by auto. tauto.
  - rewrite (subst1_eval doms X l false a i p q) by auto. tauto.
Qed.
Print Assumptions C58_renaming_copies.

Example C58_example :
  trans_fmla D (img_eq_PFmlaVbl D 1 0) /\ state_fmla D (eqc_PFmlaVbl D 0 1) /\ ok D [1; 0] /\ ok D [0; 1] /\
  steps (dotjoin_PFmla D (img_eq_PFmlaVbl D 1 0) (img_eq_PFmlaVbl D 0 1)) [1; 0] [1; 2] /\
  renamed [3; 3] [1] [0] [1; 2] [2; 2].
Proof.
  split; [apply img_eq_trans_fmla; simpl; lia|]. split; [apply eqc_state_fmla; simpl; lia|].
  split; [repeat constructor|]. split; [repeat constructor|]. split; [reflexivity|].
  split.
  - intros [|j] J; [reflexivity|simpl in J; lia].
  - intros [|[|k]] K N; simpl in *; [exfalso; apply N; auto|auto|lia].
Qed.

(** ** C59 *)
(** One formula per process: the relation is the union of the processes' steps
    in the whole system, and the list-based images are its images. *)
Theorem C59_global_relation : forall doms, inhabited doms -> forall ps, Forall (proc_ok doms) ps ->
  forall s t, ok doms s -> ok doms t ->
  (steps (xfmla doms ps) s t <-> exists p, In p ps /\ proc_step doms p s t) /\
  (holds (xpre doms ps) s <-> exists p t, In p ps /\ ok doms t /\ proc_step doms p s t).
Proof. intros; split; [apply xfmla_state|apply xpre_state]; auto. Qed.
Print Assumptions C59_global_relation.

Theorem C59_preimage_exact : forall doms ps Q, Forall (proc_ok doms) ps -> state_fmla doms Q ->
  forall s, ok doms s ->
  (holds (xpre1 doms ps Q) s <-> exists p t, In p ps /\ ok doms t /\ proc_step doms p s t /\ holds Q t).
Proof. intros; apply xpre1_state; auto. Qed.
Print Assumptions C59_preimage_exact.

Theorem C59_image_exact_partial : forall doms ps Q, Forall (proc_ok doms) ps -> state_fmla doms Q -> Q <> Cst true ->
  forall t, ok doms t ->
  (holds (ximg1 doms ps Q) t <-> exists p s, In p ps /\ ok doms s /\ proc_step doms p s t /\ holds Q s).
Proof. intros; apply ximg1_state; auto. Qed.
Print Assumptions C59_image_exact_partial.

(** The image of all states forgets that unwritten variables keep their value:
    it contains the real image ... *)
Theorem C59_image_of_everything_contains : forall doms ps, Forall (proc_ok doms) ps ->
  forall t, ok doms t -> (exists p s, In p ps /\ ok doms s /\ proc_step doms p s t) ->
  holds (ximg doms ps) t /\ holds (ximg1 doms ps (Cst true)) t.
Proof.
  intros doms ps F t T (p & s & IN & S & H & _).
  assert (G : holds (ximg doms ps) t) by (apply ximg_over; eauto).
  split; [exact G|]. unfold holds, meaning, ximg1, ximg in *. rewrite fold_or in *. cbn [eval orb] in *.
  apply existsb_exists in G as (q & Q & G). apply existsb_exists. exists q; split; [auto|]. destruct (xn q) as [[]|]; exact G.
Qed.
Print Assumptions C59_image_of_everything_contains.

(** ... but may be larger. *)
Definition reader : proc :=
  mkProc [1] (and_PFmla (eqc_PFmlaVbl D 0 0) (img_eqc_PFmlaVbl D 1 1)) (mask_xn D [1]).

Lemma mask_meaning : forall doms w, wf_ids doms w -> forall a i q, ok doms a -> ok doms i -> ok doms q ->
  (meaning (mask_xn doms w) a i q <-> agree_off doms w q i).
Proof.
  intros doms w W a i q A I Q. unfold meaning. rewrite ev_mask by auto. split; apply agree_sym.
Qed.

Lemma reader_ok : proc_ok D reader.
Proof.
  split; [repeat constructor|]. split; [|split].
  - apply trans_of_eval. intros a i p A I P. cbn [xn reader].
    rewrite !eval_and, !(ev_eqc D), !(ev_img_eqc D) by (auto; simpl; lia). auto.
  - intros a i i' p A I I' P H. unfold meaning. cbn [xn reader wvbls] in *.
    rewrite !eval_and, !(ev_eqc D), !(ev_img_eqc D) by (auto; simpl; lia). rewrite (H 1) by (left; auto). tauto.
  - cbn [mask reader wvbls]. apply mask_meaning. repeat constructor.
Qed.

Theorem C59_image_of_everything_refuted :
  Forall (proc_ok D) [reader] /\ ok D [1; 1] /\ holds (ximg D [reader]) [1; 1] /\ holds (ximg1 D [reader] (Cst true)) [1; 1] /\
  ~ exists p s, In p [reader] /\ ok D s /\ proc_step D p s [1; 1].
Proof.
  split; [constructor; [apply reader_ok|constructor]|]. split; [repeat constructor|]. split; [reflexivity|]. split; [reflexivity|].
  intros (p & s & [<-|[]] & S & H & A). specialize (A 0 ltac:(simpl; lia) ltac:(intros [C|[]]; discriminate)).
  unfold steps, meaning in H. cbn [xn reader] in H. rewrite eval_and, (ev_eqc D) in H by (auto; try (simpl; lia); repeat constructor).
  apply andb_true_iff in H as [H _]. apply Nat.eqb_eq in H. simpl in A. lia.
Qed.
Print Assumptions C59_image_of_everything_refuted.

(** The mask built for a process says that the unwritten variables stay. *)
Theorem C59_mask_exact : forall doms w, Forall (fun v => v < length doms) w ->
  forall s t, ok doms s -> ok doms t -> (steps (mask_xn doms w) s t <-> agree_off doms w s t).
Proof. intros doms w W s t S T. apply mask_meaning; auto. Qed.
Print Assumptions C59_mask_exact.

(** Self-disabling keeps exactly the steps that do not start where a step of the
    same process can end. *)
Theorem C59_self_disable_exact : forall doms p, proc_ok doms p -> forall s t, ok doms s -> ok doms t ->
  (proc_step doms (self_disable doms p) s t <->
   proc_step doms p s t /\ ~ exists r, ok doms r /\ proc_step doms p r s).
Proof. intros; apply self_disable_state; auto. Qed.
Print Assumptions C59_self_disable_exact.

Example C59_example : proc_ok D reader /\ ok D [0; 0] /\ ok D [0; 1] /\ proc_step D reader [0; 0] [0; 1].
Proof.
  split; [apply reader_ok|]. split; [repeat constructor|]. split; [repeat constructor|]. split; [reflexivity|].
  intros [|[|k]] K N; cbn in *; [auto|exfalso; apply N; auto|lia].
Qed.
