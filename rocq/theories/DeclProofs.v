From Coq Require Import String List Arith Bool ZArith Lia.
From Verif Require Import FinLib Radix FmlaModel FmlaSpec FmlaProofs FmlaProofs2 FmlaProofs3 FmlaProofs4
  ActModel NetModel IntModel IntSpec ExprModel ExprSpec ExprProps ReachSpec ReachProofs CmdModel CmdSpec CmdProofs2 CmdProofs CmdProofs3 CmdProofs4 CmdProps
  DeclModel DeclSpec.
Import ListNotations.
Local Open Scope list_scope.

(** ** The statements of a process depend on what does not change while it is read *)
Definition same_pc (p p' : process) : Prop := p_kind p' = p_kind p /\ p_vbls p' = p_vbls p.
Definition same_m (m m' : membr) : Prop := m_number m' = m_number m /\ m_index m' = m_index m /\ same_pc (m_pc m) (m_pc m').
Lemma same_pc_sym : forall p p', same_pc p p' -> same_pc p' p. Proof. intros p p' (A & B). split; auto. Qed.
Lemma same_m_sym : forall m m', same_m m m' -> same_m m' m. Proof. intros m m' (A & B & C). split; auto. split; auto. apply same_pc_sym. auto. Qed.
Lemma action_same : forall N p p' G b auto a r s t, same_pc p p' -> action_step N p G b auto a r s t -> action_step N p' G b auto a r s t.
Proof.
  intros N [k v f1 f2 f3 f4 f5] [k' v' g1 g2 g3 g4 g5] G b auto a r s t (A & B) [R C L]. cbn in A, B. subst. constructor; [exact R|exact C|exact L].
Qed.
Lemma proper_same : forall N p p', same_pc p p' -> proper_process N p -> proper_process N p'.
Proof. intros N [k v f1 f2 f3 f4 f5] [k' v' g1 g2 g3 g4 g5] (A & B) [H1 H2 H3]. cbn in A, B. subst. constructor; auto. Qed.
Lemma written_same : forall N p p', same_pc p p' -> written N p' = written N p.
Proof. intros N [k v f1 f2 f3 f4 f5] [k' v' g1 g2 g3 g4 g5] (A & B). cbn in A, B. subst. reflexivity. Qed.
Lemma total_same : forall N p p' G b a, same_pc p p' -> total_action N p G b a -> total_action N p' G b a.
Proof. intros N [k v f1 f2 f3 f4 f5] [k' v' g1 g2 g3 g4 g5] G b a (A & B) H. cbn in A, B. subst. exact H. Qed.
Lemma indexed_same : forall h m m', same_m m m' -> indexed h m' = indexed h m.
Proof. intros h m m' (_ & A & _). unfold indexed. rewrite A. auto. Qed.

Lemma some_mono : forall (Q Q' : scope -> stmt -> Prop) b l G, (forall G st, Q G st -> Q' G st) -> some_stmt Q G b l -> some_stmt Q' G b l.
Proof. intros Q Q' b l. induction l as [|st l IH]; intros G H; cbn; auto. intros [X|X]; [left|right]; auto. Qed.
Lemma every_mono : forall (Q Q' : scope -> stmt -> Prop) b l G, (forall G st, Q G st -> Q' G st) -> every_stmt Q G b l -> every_stmt Q' G b l.
Proof. intros Q Q' b l. induction l as [|st l IH]; intros G H; cbn; auto. intros (X & Y). split; auto. Qed.

Section Same.
Variables (h : pc_head) (m m' : membr).
Hypothesis SAME : same_m m m'.
Lemma given_same : forall R s t G st, given h m R s t G st <-> given h m' R s t G st.
Proof.
  intros R s t G st. unfold given. destruct st; try tauto. rewrite (indexed_same h m m' SAME). destruct SAME as (_ & _ & P).
  split; intros (A & B); split; auto; [apply (action_same _ (m_pc m))|apply (action_same _ (m_pc m'))]; auto. apply same_pc_sym. auto.
Qed.
Lemma permitted_same : forall s t G st, permitted h m s t G st <-> permitted h m' s t G st.
Proof.
  intros s t G st. unfold permitted. destruct st; try tauto. rewrite (indexed_same h m m' SAME). destruct SAME as (_ & _ & P).
  split; [apply (action_same _ (m_pc m))|apply (action_same _ (m_pc m'))]; auto. apply same_pc_sym. auto.
Qed.
Lemma forbidden_same : forall s t G st, forbidden h m s t G st <-> forbidden h m' s t G st.
Proof.
  intros s t G st. unfold forbidden. destruct st; try tauto. rewrite (indexed_same h m m' SAME). destruct SAME as (_ & _ & P).
  split; [apply (action_same _ (m_pc m))|apply (action_same _ (m_pc m'))]; auto. apply same_pc_sym. auto.
Qed.
End Same.

(** ** [specified] of a union *)
Lemma spec_or : forall N (A B : list nat -> list nat -> Prop) s t,
  specified N (fun s t => A s t \/ B s t) s t <-> specified N A s t \/ specified N B s t.
Proof.
  intros N A B s t. split.
  - intros (s' & t' & S & T & X & Y & [H|H]); [left|right]; exists s', t'; auto.
  - intros [(s' & t' & S & T & X & Y & H)|(s' & t' & S & T & X & Y & H)]; exists s', t'; auto 10.
Qed.
Lemma spec_iff : forall N (A B : list nat -> list nat -> Prop) s t, (forall s t, ok (vdoms N) s -> ok (vdoms N) t -> (A s t <-> B s t)) -> (specified N A s t <-> specified N B s t).
Proof. intros N A B s t H. split; intros (s' & t' & S & T & X & Y & Z); exists s', t'; repeat (split; auto); apply H; auto. Qed.
Lemma spec_none : forall N s t, ~ specified N (fun _ _ => False) s t.
Proof. intros N s t (s' & t' & _ & _ & _ & _ & F). auto. Qed.

(** ** Formulas *)
Section Formulas.
Variable ds : list nat.
Lemma cst_state : forall c, state_fmla ds (Cst c). Proof. intros c a i a' i' p _ _ _ _ _. reflexivity. Qed.
Lemma cst_trans : forall c, trans_fmla ds (Cst c). Proof. intros c a i a' p _ _ _ _. reflexivity. Qed.
Lemma conj_state : forall f g, state_fmla ds f -> state_fmla ds g -> state_fmla ds (and_PFmla f g).
Proof.
  intros f g F G a i a' i' p A I A' I' P. unfold meaning. rewrite !eval_and, !andb_true_iff.
  specialize (F a i a' i' p A I A' I' P). specialize (G a i a' i' p A I A' I' P). unfold meaning in *. tauto.
Qed.
Lemma conj_holds : forall f g s, holds (and_PFmla f g) s <-> holds f s /\ holds g s.
Proof. intros. unfold holds, meaning. rewrite eval_and, andb_true_iff. tauto. Qed.
Lemma conj_all : forall pfs f, state_fmla ds f -> Forall (state_fmla ds) pfs ->
  state_fmla ds (fold_left and_PFmla pfs f) /\ forall s, holds (fold_left and_PFmla pfs f) s <-> holds f s /\ forall pf, In pf pfs -> holds pf s.
Proof.
  induction pfs as [|pf pfs IH]; intros f F A; cbn.
  - split; auto. intros s. split; [intros H; split; auto; intros ? []|tauto].
  - inversion A; subst. destruct (IH (and_PFmla f pf)) as (S & H); auto; [apply conj_state; auto|]. split; auto.
    intros s. rewrite H, conj_holds. split.
    + intros ((X & Y) & Z). split; auto. intros q [<-|I]; auto.
    + intros (X & Y). auto.
Qed.
End Formulas.

Lemma in_combine_f2 : forall A B (R : A -> B -> Prop) l l', Forall2 R l l' -> forall a b, In (a, b) (combine l l') -> R a b.
Proof. intros A B R l l' H. induction H as [|x y l l' X H IH]; cbn; intros a b []; [injection H0 as <- <-|]; auto. Qed.
Lemma f2_map_combine : forall A B C (f : A * B -> C) (R : A -> B -> Prop) (Q : A -> C -> Prop) l l', Forall2 R l l' ->
  (forall a b, In a l -> R a b -> Q a (f (a, b))) -> Forall2 Q l (map f (combine l l')).
Proof.
  intros A B C f R Q l l' H. induction H as [|x y l l' X H IH]; cbn; intros K; constructor; auto. 
Qed.
Lemma f2_nth : forall A B (R : A -> B -> Prop) l l', Forall2 R l l' -> forall i a, nth_error l i = Some a -> exists b, nth_error l' i = Some b /\ R a b.
Proof. intros A B R l l' H. induction H as [|x y l l' X H IH]; intros [|i] a E; cbn in *; try discriminate; [injection E as <-|]; eauto. Qed.
Lemma f2_exists : forall A B (R : A -> B -> Prop) l l', Forall2 R l l' -> forall b, In b l' -> exists a, In a l /\ R a b.
Proof. intros A B R l l' H. induction H as [|x y l l' X H IH]; intros b []; [subst; exists x; split; auto; left; auto|]. destruct (IH b H0) as (a & I & Y). exists a. split; auto. right. auto. Qed.
Lemma f2_exists' : forall A B (R : A -> B -> Prop) l l', Forall2 R l l' -> forall a, In a l -> exists b, In b l' /\ R a b.
Proof. intros A B R l l' H. induction H as [|x y l l' X H IH]; intros b []; [subst; exists y; split; auto; left; auto|]. destruct (IH b H0) as (a & I & Y). exists a. split; auto. right. auto. Qed.
Lemma f2_forall_r : forall A B (R : A -> B -> Prop) (Q : B -> Prop) l l', Forall2 R l l' -> (forall a b, In a l -> R a b -> Q b) -> forall b, In b l' -> Q b.
Proof. intros A B R Q l l' H K b I. destruct (f2_exists A B R l l' H b I) as (a & J & X). eauto. Qed.
Lemma f2_map_r : forall A B C (R : A -> B -> Prop) (g : C -> B) l l', Forall2 (fun a c => R a (g c)) l l' <-> Forall2 R l (map g l').
Proof.
  intros A B C R g l. induction l as [|a l IH]; intros [|c l']; split; intros H; inversion H; subst; cbn; constructor; auto; apply IH; auto.
Qed.
