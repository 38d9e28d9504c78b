(** Generated UDP code: without shadow variables and randomness, what a process can do only
    depends on its kind. *)
From Coq Require Import NArith.
From Verif Require Import UdpModel UdpSpec.
From Coq Require Import List Arith Bool Lia.
From Verif Require Import FinLib Radix FmlaModel FmlaSpec FmlaProofs FmlaProofs2 FmlaProofs3 FmlaProofs4 FmlaProps ActModel ActSpec ActProofs ActProofs2 ActProofs4 ActProps NetModel NetSpec NetProofs NetProofs2 NetProofs3 NetProofs4 NetProofs5 NetProps CandModel CandSpec CandProofs GivenSpec GivenProofs SyncProofs UgenModel UgenProofs UgenSpec UgenProofs2 UgenProofs3 UgenProofs4 UgenProofs5 UgenProofs6.
Import ListNotations.

(** A move in terms of the cells. *)
Definition cell_move (k : pcsymm) (v x y : list nat) : Prop :=
  (forall i, i < length (accs k) -> visible (nth i (accs k) acc0) -> nth i x 0 = tested v i) /\
  (forall i, i < length (accs k) -> writable (nth i (accs k) acc0) ->
     nth i y 0 = if assigned k v i =? a_dom (nth i (accs k) acc0) then nth i x 0 else assigned k v i) /\
  (forall i, i < length (accs k) -> ~ writable (nth i (accs k) acc0) -> nth i y 0 = nth i x 0) /\
  ((forall i, i < length (accs k) -> writable (nth i (accs k) acc0) -> visible (nth i (accs k) acc0) -> tested v i = assigned k v i) ->
   exists i, i < length (accs k) /\ writable (nth i (accs k) acc0) /\ ~ visible (nth i (accs k) acc0) /\
      assigned k v i < a_dom (nth i (accs k) acc0) /\ nth i x 0 <> assigned k v i).
Definition class_cells (ks : list pcsymm) (a k : nat) (x y : list nat) : Prop :=
  exists r, r < actions_in ks /\ same_action_class ks a r /\ k = act_pc (act_of ks r) /\
    cell_move (nth k ks pc0) (vals (act_of ks r)) x y.
Definition kind_can_do (ks : list pcsymm) (actions : list nat) (k : nat) (x y : list nat) : Prop :=
  exists a, In a actions /\ act_pc (act_of ks a) = k /\ fits (nth k ks pc0) x /\ fits (nth k ks pc0) y /\
    class_cells ks a k x y /\ ~ exists z, fits (nth k ks pc0) z /\ class_cells ks a k z x.

Section Net.
Variable N : network.
Notation ds := (vdoms N).
Notation ok := (FmlaSpec.ok (vdoms N)).
Hypothesis HN : net_ok N.
Hypothesis PL : plain_kinds (kinds N).
Section Process.
Variables (j : nat) (p : process).
Hypothesis Hj : nth_error (pcs N) j = Some p.
Hypothesis ND : NoDup (p_vbls p).
Notation kd := (its_kind N p).
Let Hp : In p (pcs N) := nth_error_In _ _ Hj.

Lemma kind_in : In kd (kinds N).
Proof. unfold its_kind. apply nth_In. apply (no_kind _ HN p Hp). Qed.
Lemma all_shown : shown kd = seq 0 (length (accs kd)).
Proof.
  unfold shown. assert (G : forall l, (forall i, In i l -> i < length (accs kd)) ->
    filter (fun i => match a_role (nth i (accs kd) acc0) with Shadow => false | _ => true end) l = l).
  { induction l as [|i l IH]; intros H; cbn [filter]; auto. destruct (PL kd (nth i (accs kd) acc0) kind_in) as (A & _); [apply nth_In; apply H; cbn; auto|].
    destruct (a_role (nth i (accs kd) acc0)); try congruence; rewrite IH; auto; intros; apply H; cbn; auto. }
  apply G. intros i I. apply in_seq in I. lia.
Qed.
Lemma cells_nth : forall s i, i < length (accs kd) -> nth i (cells N p s) 0 = value s p i.
Proof.
  intros s i L. unfold cells. rewrite all_shown. rewrite (nth_indep _ 0 (value s p 0)) by (rewrite map_length, seq_length; auto).
  rewrite (map_nth (value s p)), seq_nth by auto. reflexivity.
Qed.
Lemma no_fickle : forall v, ~ fickle N v.
Proof.
  intros v (q & i & Hq & L & A & _). assert (K : In (its_kind N q) (kinds N)) by (unfold its_kind; apply nth_In; apply (no_kind _ HN q Hq)).
  destruct (PL (its_kind N q) (access_at N q i) K) as (_ & B & _); [apply nth_In; auto|]. auto.
Qed.
Lemma no_random : ~ randomised N p.
Proof. intros (i & L & _ & A). destruct (PL kd (access_at N p i) kind_in) as (_ & _ & B); [apply nth_In; auto|]. auto. Qed.
Lemma len_vbls : length (p_vbls p) = length (accs kd).
Proof. apply (no_vbls _ HN p Hp). Qed.
Lemma vbl_inj : forall i i', i < length (accs kd) -> i' < length (accs kd) -> vbl_at p i = vbl_at p i' -> i = i'.
Proof. intros i i' L L' E. pose proof (proj1 (NoDup_nth (p_vbls p) 0) ND) as X. apply (X i i'); rewrite ?len_vbls; auto. Qed.
Definition frame (s t : list nat) : Prop := forall v, v < length ds -> ~ In v (p_vbls p) -> nth v t 0 = nth v s 0.
Lemma move_cells : forall v s t, local_move N p v s t <-> cell_move kd v (cells N p s) (cells N p t) /\ frame s t.
Proof.
  intros v s t. split.
  - intros [G A F E _]. split; [split; [|split; [|split]]|].
    + intros i L V. rewrite cells_nth by auto. apply G; auto.
    + intros i L W. rewrite !cells_nth by auto. apply A; auto. destruct (PL kd (access_at N p i) kind_in) as (_ & _ & B); [apply nth_In; auto|]. auto.
    + intros i L W. rewrite !cells_nth by auto. unfold value. apply F; [apply (no_id _ HN p i Hp L)| |apply no_fickle].
      intros (i' & L' & W' & E'). apply vbl_inj in E'; auto. subst i'. auto.
    + intros X. destruct (E no_random X) as (i & L & W & V & B & C). exists i. rewrite cells_nth by auto. auto.
    + intros x L I. apply F; auto; [|apply no_fickle]. intros (i & L' & _ & E'). apply I. rewrite <- E'. apply nth_In. rewrite len_vbls. auto.
  - intros ((G & A & NW & E) & F). split.
    + intros i L V. rewrite <- cells_nth by auto. apply G; auto.
    + intros i L W _. rewrite <- !cells_nth by auto. apply A; auto.
    + intros x L O _. destruct (in_dec Nat.eq_dec x (p_vbls p)) as [I|I]; [|apply F; auto].
      apply In_nth with (d := 0) in I. destruct I as (i & L' & E'). rewrite len_vbls in L'.
      specialize (NW i L'). rewrite !cells_nth in NW by auto. unfold value, vbl_at in NW. rewrite E' in NW. apply NW. intros W. apply O. exists i. auto.
    + intros _ X. destruct (E X) as (i & L & W & V & B & C). exists i. rewrite cells_nth in C by auto. auto.
    + intros X. exfalso. apply no_random. auto.
Qed.
Lemma class_cells_iff : forall a s t, class_move N a p s t <-> class_cells (kinds N) a (p_kind p) (cells N p s) (cells N p t) /\ frame s t.
Proof.
  intros a s t. unfold class_move, class_cells. fold kd. split.
  - intros (r & A & B & C & M). apply move_cells in M. destruct M as (M & F). split; auto. exists r. auto.
  - intros ((r & A & B & C & M) & F). exists r. split; auto. split; auto. split; auto. apply move_cells; auto.
Qed.
Lemma with_cells : forall s x, ok s -> fits kd x -> exists t, ok t /\ cells N p t = x /\ frame s t.
Proof.
  intros s x Hs Hx. destruct (state_with N HN j p Hj ND x Hx) as (s' & S1 & S2).
  set (f := fun v => if existsb (Nat.eqb v) (p_vbls p) then nth v s' 0 else nth v s 0).
  assert (FN : forall v, v < length ds -> nth v (map f (seq 0 (length ds))) 0 = f v).
  { intros v L. rewrite (nth_indep _ 0 (f 0)) by (rewrite map_length, seq_length; auto). rewrite (map_nth f), seq_nth by auto. reflexivity. }
  exists (map f (seq 0 (length ds))). split; [|split].
  - apply Forall2_nth_iff. rewrite map_length, seq_length. split; auto. intros v L. rewrite FN by auto. unfold f.
    apply Forall2_nth_iff in Hs. apply Forall2_nth_iff in S1. destruct (existsb _ _); [apply S1|apply Hs]; auto.
  - rewrite <- S2. unfold cells. apply map_ext_in. intros i I. apply shown_lt in I. unfold value. rewrite FN by (apply (no_id _ HN p i Hp I)).
    unfold f. assert (X : existsb (Nat.eqb (vbl_at p i)) (p_vbls p) = true).
    { apply existsb_exists. exists (vbl_at p i). split; [|apply Nat.eqb_refl]. apply nth_In. rewrite len_vbls. auto. }
    rewrite X. reflexivity.
  - intros v L I. rewrite FN by auto. unfold f. destruct (existsb (Nat.eqb v) (p_vbls p)) eqn:X; auto. exfalso. apply existsb_exists in X.
    destruct X as (w & X1 & X2). apply Nat.eqb_eq in X2. congruence.
Qed.
Lemma after_cells : forall v s t, local_move N p v s t -> cells_after N p s t = cells N p t.
Proof.
  intros v s t M. apply move_cells in M. destruct M as ((_ & _ & NW & _) & _). unfold cells_after, cells. apply map_ext_in. intros i I. apply shown_lt in I.
  specialize (NW i I). rewrite !cells_nth in NW by auto.
  destruct (a_type (access_at N p i)) eqn:A; auto; symmetry; apply NW; intros W; unfold access_at in A; unfold writable in W; rewrite A in W; intuition discriminate.
Qed.
Variable actions : list nat.
Hypothesis ACTS : proper_actions N actions.
Lemma det : forall a, act_pc (act_of (kinds N) a) = p_kind p -> deterministic_kind N a.
Proof. intros a E x I. rewrite E in I. fold kd in I. destruct (PL kd x kind_in I) as (_ & _ & X). auto. Qed.
Lemma can_do_kind : forall x y, can_do N true actions j p x y <-> kind_can_do (kinds N) actions (p_kind p) x y.
Proof.
  intros x y. unfold can_do, kind_can_do. fold kd. split.
  - intros (a & s & t & A1 & A2 & A3 & A4 & A5 & A6 & A7). exists a. split; auto. split; auto. destruct (ACTS a A1) as (B1 & B2).
    apply (C64_lightweight_exact N a j p s t HN B1 B2 Hj A3 A4) in A5. destruct A5 as (M & Q). specialize (Q (det a A2)).
    pose proof M as (r & _ & _ & _ & M'). rewrite (after_cells _ _ _ M') in A7. apply class_cells_iff in M. destruct M as (M & _). rewrite A6, A7 in M.
    split; [rewrite <- A6; apply (cells_fit N HN j p Hj); auto|]. split; [rewrite <- A7; apply (cells_fit N HN j p Hj); auto|]. split; auto.
    intros (z & Z1 & Z2). apply Q. destruct (with_cells s z A3 Z1) as (u & U1 & U2 & U3). exists u. split; auto. apply class_cells_iff. rewrite U2, A6. split; auto.
    intros v L I. symmetry. apply U3; auto.
  - intros (a & A1 & A2 & A3 & A4 & A5 & A6). destruct (state_with N HN j p Hj ND x A3) as (s & S1 & S2).
    destruct (with_cells s y S1 A4) as (t & T1 & T2 & T3). destruct (ACTS a A1) as (B1 & B2).
    assert (M : class_move N a p s t) by (apply class_cells_iff; rewrite S2, T2; auto).
    exists a, s, t. split; auto. split; auto. split; auto. split; auto. split; [|split; auto].
    + apply (C64_lightweight_exact N a j p s t HN B1 B2 Hj S1 T1). split; auto. intros _ (u & U1 & U2). apply A6. apply class_cells_iff in U2. destruct U2 as (U2 & _).
      rewrite S2 in U2. exists (cells N p u). split; auto. apply (cells_fit N HN j p Hj); auto.
    + pose proof M as (r & _ & _ & _ & M'). rewrite (after_cells _ _ _ M'). auto.
Qed.
Lemma redrawn_same : forall x x', fits kd x -> (redrawn N p x x' <-> x' = x).
Proof.
  intros x x' Hx. split.
  - intros (A & B). apply fits_iff in A. pose proof (proj1 (fits_iff N p x) Hx) as (LX & _). destruct A as (LX' & _).
    apply nth_ext with (d := 0) (d' := 0); [congruence|]. intros m L. apply B; [rewrite screen_length; lia|apply no_fickle].
  - intros ->. split; auto.
Qed.
End Process.
End Net.

Lemma result_kind : forall T O actions, net_ok T -> net_ok O -> kinds T = kinds O -> plain_kinds (kinds T) -> proper_actions T actions ->
  forall j q i p, nth_error (pcs T) j = Some q -> nth_error (pcs O) i = Some p -> p_kind q = p_kind p -> NoDup (p_vbls q) -> NoDup (p_vbls p) ->
  forall x y, fits (its_kind O p) x -> (action_result T true actions j q x y <-> action_result O true actions i p x y).
Proof.
  intros T O actions HT HO KS PL ACTS j q i p Hq Hp K NDq NDp x y Hx.
  assert (PLO : plain_kinds (kinds O)) by (rewrite <- KS; auto).
  assert (ACTO : proper_actions O actions). { intros a Ha. rewrite <- KS. apply ACTS. auto. }
  assert (CD : forall x y, can_do T true actions j q x y <-> can_do O true actions i p x y).
  { intros x0 y0. rewrite (can_do_kind T HT PL j q Hq NDq actions ACTS). rewrite (can_do_kind O HO PLO i p Hp NDp actions ACTO). rewrite KS, K. reflexivity. }
  assert (HxT : fits (its_kind T q) x) by (unfold its_kind; rewrite KS, K; exact Hx).
  unfold action_result. split; intros (x' & R & H); exists x'.
  - apply (redrawn_same T HT PL q) in R; auto. subst x'. split; [apply (redrawn_same O HO PLO p); auto|].
    rewrite !(CD x y) in H. destruct H as [H|[(H1 & H2 & H3)|(H1 & H2)]]; auto; right; [left|right]; repeat split; auto; intros z Z; [apply H3|apply (H2 z)]; apply CD; auto.
  - apply (redrawn_same O HO PLO p) in R; auto. subst x'. split; [apply (redrawn_same T HT PL q); auto|].
    rewrite !(CD x y). destruct H as [H|[(H1 & H2 & H3)|(H1 & H2)]]; auto; right; [left|right]; repeat split; auto; intros z Z; [apply H3|apply (H2 z)]; apply CD; auto.
Qed.
