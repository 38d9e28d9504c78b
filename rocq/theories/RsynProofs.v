From Coq Require Import NArith.
From Verif Require Import UdpModel UdpSpec.
From Coq Require Import String List Arith Bool ZArith Lia.
From Verif Require Import FinLib Radix ParseModel AccessModel AccessSpec PrintModel FmlaModel FmlaSpec FmlaProofs FmlaProofs2 FmlaProofs3 FmlaProofs4 FmlaProps
  ActModel ActSpec ActProofs ActProofs2 ActProofs4 ActProps NetModel NetSpec NetProofs NetProofs2 NetProofs3 NetProofs4 NetProofs5 NetProps
  CandModel CandSpec CandProofs GivenSpec GivenProofs IntModel ExprModel ExprSpec ReachSpec CmdModel CmdSpec CmdProofs4 DeclModel DeclSpec DeclProofs DeclProofs2 DeclProofs3 DeclProofs4 DeclProps
  UniModel UniSpec SynthModel SynthSpec UtextModel RsynModel RsynSpec.
Import ListNotations.
Local Open Scope list_scope.
Local Open Scope nat_scope.

Lemma byte_small : forall x, x < 256 -> byte x = x.
Proof. intros x L. apply Nat.mod_small. auto. Qed.

Section Loop.
Variable N : network.
Notation ds := (vdoms N).
Notation ok := (FmlaSpec.ok (vdoms N)).
Hypothesis INH : inhabited ds.

Lemma pick_any : forall f ids, state_fmla ds f -> wf_ids ds ids -> sat_ck ds f = true ->
  exists s, ok s /\ holds f s /\ state_of_PFmla ds f ids = Some (values ids s).
Proof.
  intros f ids SF W E. assert (SAT := proj1 (sat_iff ds INH f) E).
  assert (X : exists st, state_of_PFmla ds f ids = Some st) by (destruct f as [[]|f]; cbn; eauto; cbn in E; discriminate).
  destruct X as (st & X). destruct (C57_state_of_least ds INH f ids st W SAT X) as ((a & i & q & A & I & Q & M & V) & _).
  exists q. split; auto. split; [unfold holds, meaning; rewrite <- (state_eval ds f SF a i q A I Q); exact M|]. rewrite X, <- V. reflexivity.
Qed.

Variables u v : nat.
Hypothesis W : wf_ids ds [u; v].
Hypothesis SM : nth u ds 0 <= 256 /\ nth v ds 0 <= 256.
Lemma ok_nth : forall s i, ok s -> i < length ds -> nth i s 0 < nth i ds 0.
Proof.
  intros s i S. unfold FmlaSpec.ok in S. clear INH W SM. revert i. generalize dependent (vdoms N). intros d S. induction S as [|x e l l' L S IH]; intros i Hi; cbn in *; [lia|]. destruct i; auto. apply IH. lia.
Qed.
Lemma in_both : u < length ds /\ v < length ds.
Proof. inversion W as [|? ? A W']; subst. inversion W'; subst. auto. Qed.
Lemma bytes_of : forall s, ok s -> (byte (nth 0 (values [u; v] s) 0), byte (nth 1 (values [u; v] s) 0)) = (nth u s 0, nth v s 0).
Proof.
  intros s S. destruct in_both as (A & B). pose proof (ok_nth s u S A). pose proof (ok_nth s v S B). unfold values. cbn [map nth]. rewrite !byte_small by lia. reflexivity.
Qed.

Lemma legit_loop_spec : forall fuel f, state_fmla ds f -> count N (fun t => eval f (join t t t)) < fuel ->
  exists l, legit_loop N fuel [u; v] f = Some l /\ NoDup l /\ forall a b, In (a, b) l <-> exists s, ok s /\ holds f s /\ nth u s 0 = a /\ nth v s 0 = b.
Proof.
  induction fuel as [|fuel IH]; intros f SF C; [lia|]. cbn [legit_loop]. destruct (sat_ck ds f) eqn:E.
  - destruct (pick_any f [u; v] SF W E) as (t0 & T0 & H0 & ->). rewrite (bytes_of t0 T0). set (st := values [u; v] t0).
    assert (LS : length st = length [u; v]) by reflexivity.
    assert (OS : forall t, ok t -> (holds (of_state ds st [u; v]) t <-> nth u t 0 = nth u t0 0 /\ nth v t 0 = nth v t0 0)).
    { intros t Tt. rewrite (proj1 (C57_of_state_exact ds st [u; v] W LS t t Tt Tt)). unfold st, values. cbn. split; [intros X; injection X; auto|]. intros (-> & ->). auto. }
    destruct (IH (nimp_PFmla f (of_state ds st [u; v]))) as (l & EL & ND & HL).
    + apply nimp_is_state; auto. apply of_state_is_state. apply W.
    + enough (count N (fun t => eval (nimp_PFmla f (of_state ds st [u; v])) (join t t t)) < count N (fun t => eval f (join t t t))) by lia.
      apply count_mono.
      * intros t Tt H. apply (nimp_state f _ t) in H. apply H.
      * exists t0. split; auto. split; auto. apply not_true_iff_false. intros H. apply (nimp_state f _ t0) in H. destruct H as (_ & H). apply H, OS; auto.
    + rewrite EL. eexists. split; [reflexivity|]. split.
      * constructor; auto. rewrite HL. intros (s & S & H & X & Y). apply nimp_state in H. destruct H as (_ & H). apply H, OS; auto.
      * intros a b. cbn [In]. rewrite HL. split.
        -- intros [X|(t & Tt & H & X)]; [injection X as <- <-; exists t0; auto|]. apply nimp_state in H. exists t. tauto.
        -- intros (t & Tt & H & <- & <-). destruct (Nat.eq_dec (nth u t 0) (nth u t0 0)) as [D1|D1]; [destruct (Nat.eq_dec (nth v t 0) (nth v t0 0)) as [D2|D2]|].
           ++ left. congruence.
           ++ right. exists t. split; auto. split; auto. apply nimp_state. split; auto. rewrite OS by auto. tauto.
           ++ right. exists t. split; auto. split; auto. apply nimp_state. split; auto. rewrite OS by auto. tauto.
  - exists []. split; auto. split; [constructor|]. intros a b. split; [intros []|]. intros (t & Tt & H & _).
    enough (sat_ck ds f = true) by congruence. apply (sat_state ds INH); auto. eauto.
Qed.
End Loop.

(** ** What the file says *)
Lemma kinds_outside : forall l2 G, kinds_say G (map Outside l2) [].
Proof. induction l2 as [|st l2 IH]; intros G; cbn; auto. Qed.
Lemma kinds_outside_inv : forall l2 G Ps, kinds_say G (map Outside l2) Ps -> Ps = [].
Proof. induction l2 as [|st l2 IH]; intros G Ps H; cbn in H; auto. apply (IH _ _ H). Qed.
Lemma only_kind_says : forall G0 l G h body Ps, only_kind G0 l G h body -> kinds_say G0 l Ps ->
  exists P, Ps = [P] /\ Forall2 (member_says h G body) (h_membs h) (k_membs P).
Proof.
  intros G0 l G h body Ps (l1 & l2 & -> & ->). revert G0. induction l1 as [|st l1 IH]; intros G0 K; cbn [map app fold_left] in *.
  - destruct K as (P & Ps' & -> & F & K). apply kinds_outside_inv in K. subst Ps'. eauto.
  - apply IH. exact K.
Qed.
Lemma only_kind_head : forall ds G0 l G h body, only_kind G0 l G h body -> every_item (proper_item ds) G0 l -> proper_head ds G h.
Proof.
  intros ds G0 l G h body (l1 & l2 & -> & ->). revert G0. induction l1 as [|st l1 IH]; intros G0 K; cbn [map app fold_left every_item] in *.
  - destruct K as ((K & _) & _). exact K.
  - apply IH. exact (proj2 K).
Qed.

Section File.
Variables (consts : list (string * list Z)) (arrays : list (string * list nat)) (l : list item).
Variables (Y : sys_state) (Ps : list pc_state) (G : scope) (h : pc_head) (body : list stmt).
Notation N := (h_net h).
Notation ds := (vdoms (h_net h)).
Notation G0 := (at_first consts arrays).
Hypothesis INH : inhabited ds.
Hypothesis PD : proper_decls ds consts arrays.
Hypothesis PR : every_item (proper_item ds) G0 l.
Hypothesis E : read_file consts arrays ds l = Some (Y, Ps).
Hypothesis ONE : only_kind G0 l G h body.

Lemma direct_none : sat_ck ds (t_direct (y_totals Y)) = false <-> no_actions ds G0 l.
Proof.
  pose proof (items_spec ds consts arrays INH l _ _ Y Ps (new_fine ds consts arrays PD) PR E) as (_ & _ & _ & _ & _ & (_ & _ & TF & _)).
  unfold no_actions. rewrite <- not_true_iff_false, (sat_iff ds INH). split.
  - intros H s t S T X. apply H. exists s, t, s. split; auto. split; auto. split; auto.
    apply (proj1 (C90_steps ds consts arrays l Y Ps INH PD PR E s t S T)). exact X.
  - intros H (a & i & p & A & I & P & X). rewrite (trans_eval ds _ TF a i p A I P) in X. apply (H p i P I).
    apply (proj1 (C90_steps ds consts arrays l Y Ps INH PD PR E p i P I)). exact X.
Qed.

Lemma members : exists P, Ps = [P] /\ Forall2 (member_says h G body) (h_membs h) (k_membs P).
Proof. apply (only_kind_says _ _ _ _ _ _ ONE). apply (C90_processes ds consts arrays l Y Ps INH PD PR E). Qed.

Lemma invariant_spec : forall P, Forall2 (member_says h G body) (h_membs h) (k_membs P) ->
  state_fmla ds (invariant_of P) /\ forall s, ok ds s -> (holds (invariant_of P) s <-> forall m, In m (h_membs h) -> content h G body m s).
Proof.
  intros P F. unfold invariant_of. destruct (conj_all ds (map mb_invariant (k_membs P)) (Cst true)) as (A & B).
  - apply cst_state.
  - apply Forall_forall. intros pf I. apply in_map_iff in I. destruct I as (m' & <- & I). destruct (f2_exists _ _ _ _ _ F _ I) as (m & _ & S). apply (ms_states _ _ _ _ _ S).
  - split; auto. intros s S. rewrite B. split.
    + intros (_ & H) m I. destruct (f2_exists' _ _ _ _ _ F _ I) as (m' & I' & MS). apply (ms_invariant _ _ _ _ _ MS s S). apply H. apply in_map. auto.
    + intros H. split; [reflexivity|]. intros pf I. apply in_map_iff in I. destruct I as (m' & <- & I). destruct (f2_exists _ _ _ _ _ F _ I) as (m & J & MS).
      apply (ms_invariant _ _ _ _ _ MS s S). apply H. auto.
Qed.
Lemma same_invariant : forall P, Forall2 (member_says h G body) (h_membs h) (k_membs P) ->
  (equiv_ck ds (invariant_of P) (y_invariant Y) = true <-> forall s, ok ds s -> (legitimate G0 l s <-> forall m, In m (h_membs h) -> content h G body m s)).
Proof.
  intros P F. destruct (invariant_spec P F) as (SI & HI). destruct (C90_legitimate ds consts arrays l Y Ps INH PD PR E) as (SY & HY).
  rewrite (equiv_iff ds INH). split.
  - intros H s S. unfold legitimate. rewrite <- HY, <- HI by auto. unfold holds, meaning. rewrite (H s s s S S S). tauto.
  - intros H a i p A I Q. rewrite (state_eval ds _ SI a i p A I Q), (state_eval ds _ SY a i p A I Q). apply eq_true_iff_eq.
    transitivity (holds (invariant_of P) p); [reflexivity|]. transitivity (holds (y_invariant Y) p); [|reflexivity].
    rewrite HI, HY by auto. symmetry. apply (H p Q).
Qed.
End File.
