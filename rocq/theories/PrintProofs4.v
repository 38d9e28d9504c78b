(** Solutions in the output file: the protocol that is read back. *)
From Coq Require Import String List Arith Bool ZArith Lia.
From Verif Require FmlaProofs CmdProps GivenProofs GivenProps.
From Verif Require Import ParseModel AccessModel PrintModel PrintProofs FmlaModel FmlaSpec IntModel ExprModel ExprSpec
  ActModel ActSpec ActProofs ActProofs2 ActProofs4 ActProps NetModel NetSpec NetProofs CandModel GivenSpec CmdModel CmdSpec PrintSpec PrintProofs2 PrintProofs3.
Import ListNotations.
Local Open Scope list_scope.

(** ** Order of the actions *)
Lemma insert_in : forall a l x, In x (insert_act a l) <-> x = a \/ In x l.
Proof.
  intros a l x. induction l as [|b l IH]; simpl.
  - split; [intros [<-|[]]; auto|intros [->|[]]; auto].
  - destruct (lex_lt (vals b) (vals a)); simpl; [rewrite IH|]; split; intros H; intuition; subst; auto.
Qed.
Lemma sort_in : forall l x, In x (sort_acts l) <-> In x l.
Proof. intros l x. unfold sort_acts. induction l as [|a l IH]; simpl; [tauto|]. rewrite insert_in, IH. split; intros [H|H]; auto. Qed.

(** ** Steps do not depend on the formulas that a process has *)
Section Same.
Variable N : network.
Variables p q : process.
Hypothesis K : p_kind p = p_kind q.
Hypothesis V : p_vbls p = p_vbls q.
Lemma kind_same : kind_of N p = kind_of N q.
Proof. unfold kind_of. rewrite K. reflexivity. Qed.
Lemma own_same : own_wvbls N p = own_wvbls N q.
Proof. unfold own_wvbls, wvbl, rvbl. rewrite kind_same, V. reflexivity. Qed.
Lemma step_same : forall G b act s t, action_step N p G b true act Puppet s t -> action_step N q G b true act Puppet s t.
Proof.
  intros G b act s t [A B C].
  assert (R : raw_step N p G b true act = raw_step N q G b true act) by (unfold raw_step, kept, wvbl, rvbl; rewrite kind_same, V; reflexivity).
  constructor.
  - rewrite <- R. exact A.
  - intros Q. specialize (B Q). rewrite R in B. unfold only_read, rvbl in *. rewrite kind_same, V in B. exact B.
  - intros (w & W). rewrite <- own_same. apply C. exists w. unfold wvbl, rvbl in *. rewrite kind_same, V. exact W.
Qed.
Lemma proper_same : proper_process N p -> proper_process N q.
Proof. intros [A B C]. constructor; rewrite <- ?V, <- ?kind_same, <- ?own_same; auto. Qed.
Lemma access_same : forall i, accesses N p = accesses N q /\ access_at N p i = access_at N q i /\ vbl_at p i = vbl_at q i /\ its_kind N p = its_kind N q.
Proof. intros i. unfold accesses, access_at, its_kind, vbl_at. rewrite K, V. auto. Qed.
Lemma own_spec_same : forall x, own N p x -> own N q x.
Proof. intros x (i & H). destruct (access_same i) as (A & B & C & D). exists i. rewrite <- A, <- B, <- C. exact H. Qed.
Lemma written_same : forall v s t, written_move N p v s t -> written_move N q v s t.
Proof.
  intros v s t [A B C]. destruct (access_same 0) as (A0 & _ & _ & K0). constructor; intros; rewrite <- ?A0, <- ?K0 in *.
  - destruct (access_same i) as (_ & A2 & A3 & _). unfold value. rewrite <- A2, <- A3 in *. apply A; auto.
  - destruct (access_same i) as (_ & A2 & A3 & _). unfold value. rewrite <- A2, <- A3 in *. apply B; auto.
  - destruct C as (x & X & Y); [|exists x; split; auto; apply own_spec_same; auto]. destruct H as (i & H). exists i. destruct (access_same i) as (_ & A2 & _). rewrite A2. exact H.
Qed.
End Same.

Section Solution.
Variable N : network.
Notation ds := (vdoms N).
Notation ok := (FmlaSpec.ok (vdoms N)).
Hypothesis HN : net_ok N.
Variable F : file.
Variable idx : string.
Variable lets : list (string * list Z).
Variable preds : list (string * list fmla).
Variable names : list string.
Variable G : nat -> scope.
Variable sls : list slot.
Variable k : nat.
Notation K := (nth k (kinds N) pc0).
Hypothesis NR : nr K = length sls.

(** A process of the kind, as far as actions are concerned. *)
Record fits (m : membr) : Prop := mkFits {
  ft_one : exists p0, In p0 (pcs N) /\ p_kind (m_pc m) = p_kind p0 /\ p_vbls (m_pc m) = p_vbls p0;
  ft_kind : p_kind (m_pc m) = k;
  ft_named : named ds names (G (m_number m)) [(idx, m_index m)] (p_vbls (m_pc m)) sls;
  ft_declares : declares ds F (Some (use_of lets preds m)) (G (m_number m));
  ft_once : NoDup (own_wvbls N (m_pc m));
  ft_sees : sees_draws N (m_pc m)
}.
Lemma fits_kind : forall m, fits m -> kind_of N (m_pc m) = K.
Proof. intros m H. unfold kind_of. rewrite (ft_kind _ H). reflexivity. Qed.
Lemma fits_proper : forall m, fits m -> proper_process N (m_pc m).
Proof.
  intros m H. destruct (ft_one _ H) as (p0 & I & E1 & E2). apply (proper_same N p0 (m_pc m)); auto. constructor.
  - apply (no_vbls _ HN); auto.
  - apply (GivenProofs.read_wf N HN); auto.
  - rewrite (own_same N p0 (m_pc m)); auto. apply (ft_once _ H).
Qed.
Lemma fits_moves : forall m v, fits m -> action_values K v -> forall s t, ok s -> ok t ->
  (action_step N (m_pc m) (G (m_number m)) [(idx, m_index m)] true (the_action K sls v) Puppet s t <-> written_move N (m_pc m) v s t).
Proof.
  intros m v H AV s t OK OT. destruct (ft_one _ H) as (p0 & I & E1 & E2).
  assert (Q : action_step N p0 (G (m_number m)) [(idx, m_index m)] true (the_action (kind_of N p0) sls v) Puppet s t <-> written_move N p0 v s t).
  { rewrite <- (kind_same N (m_pc m) p0) by auto. rewrite (fits_kind m H). rewrite <- (fits_kind m H) at 1. rewrite (kind_same N (m_pc m) p0) by auto.
    apply printed_moves with (names := names); auto.
    - rewrite <- E2. apply (ft_named _ H).
    - rewrite <- (kind_same N (m_pc m) p0) by auto. rewrite (fits_kind m H). exact NR.
    - rewrite (own_same N p0 (m_pc m)) by auto. apply (ft_once _ H).
    - rewrite <- (kind_same N (m_pc m) p0) by auto. rewrite (fits_kind m H). exact AV.
    - intros i A B. destruct (access_same N (m_pc m) p0 E1 E2 i) as (A1 & A2 & A3 & _). rewrite <- A1 in *. rewrite <- A3 in *. destruct (ft_sees _ H i A B) as (j & J & V & X). exists j.
      destruct (access_same N (m_pc m) p0 E1 E2 j) as (_ & B2 & B3 & _). rewrite <- B2, <- B3. auto. }
  rewrite <- (kind_same N (m_pc m) p0) in Q by auto. rewrite (fits_kind m H) in Q. split; intros X.
  - apply (written_same N p0 (m_pc m)); auto. apply Q. apply (step_same N (m_pc m) p0); auto.
  - apply (step_same N p0 (m_pc m)); auto. apply Q. apply (written_same N (m_pc m) p0); auto.
Qed.
Lemma fits_grown : forall r R m m', fits m -> member_grown N r R m m' -> fits m'.
Proof.
  intros r R m m' H M. destruct M as [M1 M2 M3 M4 M5 M6 M7]. destruct H as [(p0 & I & E1 & E2) B C D E SD]. constructor.
  - exists p0. rewrite M3, M4. auto.
  - congruence.
  - rewrite M1, M2, M4. auto.
  - unfold use_of in *. rewrite M1, M4. auto.
  - rewrite (own_same N (m_pc m') (m_pc m)); auto.
  - intros i A Q. destruct (access_same N (m_pc m') (m_pc m) M3 M4 i) as (A1 & A2 & A3 & _). rewrite A1 in *. rewrite A3 in *. destruct (SD i A Q) as (j & J & V & X). exists j.
    destruct (access_same N (m_pc m') (m_pc m) M3 M4 j) as (_ & B2 & B3 & _). rewrite B2, B3. auto.
Qed.
Lemma random_known : wf_ids ds (random_vbls N).
Proof. unfold wf_ids. apply Forall_forall. intros x I. apply (fickle_iff N) in I. destruct I as (p & i & P & L & _ & <-). apply (no_id _ HN p i P L). Qed.

Hypothesis PLAIN : existsb synt_writeonly_ck (accs K) = false.
Hypothesis SEEN : exists i, i < nr K /\ visible (acc K i).
(** Members before and after [vs] have been read *)
Record read_more (vs : list (list nat)) (m m' : membr) : Prop := mkReadMore {
  rm_fits : fits m';
  rm_number : m_number m' = m_number m;
  rm_index : m_index m' = m_index m;
  rm_kind : p_kind (m_pc m') = p_kind (m_pc m);
  rm_vbls : p_vbls (m_pc m') = p_vbls (m_pc m);
  rm_rest : p_assume (m_pc m') = p_assume (m_pc m) /\ p_permit (m_pc m') = p_permit (m_pc m) /\ p_forbid (m_pc m') = p_forbid (m_pc m);
  rm_trans : trans_fmla ds (p_puppet (m_pc m'));
  rm_puppet : forall s t, ok s -> ok t -> (FmlaSpec.steps (p_puppet (m_pc m')) s t <-> FmlaSpec.steps (p_puppet (m_pc m)) s t \/ exists v, In v vs /\ written_move N (m_pc m) v s t);
  rm_shadow : forall s t, ok s -> ok t -> (FmlaSpec.steps (p_shadow (m_pc m')) s t <-> FmlaSpec.steps (p_shadow (m_pc m)) s t)
}.
Lemma read_all : forall vs, Forall (action_values K) vs -> forall mbs T, mbs <> [] -> Forall fits mbs -> Forall (grown_so_far N) mbs -> trans_fmla ds (t_direct T) -> trans_fmla ds (t_shadow T) ->
  exists mbs' T', read_puppets N F idx lets preds names (map (action_text K sls) vs) mbs T = Some (mbs', T') /\ Forall2 (read_more vs) mbs mbs'.
Proof.
  induction vs as [|v vs IH]; intros AV mbs T NE FT GR TD TS.
  - exists mbs, T. split; [reflexivity|]. clear NE TD TS AV. revert GR. induction FT as [|m mbs H FT IH]; intros GR; constructor; inversion GR as [|? ? (G1 & _) G2]; subst; auto.
    constructor; auto; intros; [|tauto]. split; auto. intros [A|(v & [] & _)]; auto.
  - inversion AV as [|? ? AV1 AV2]; subst. cbn [map read_puppets].
    destruct mbs as [|m0 mbs0]; [contradiction|]. set (mbs := m0 :: mbs0) in *. assert (H0 : fits m0) by (inversion FT; auto).
    assert (NR0 : nr (kind_of N (m_pc m0)) = length sls) by (rewrite (fits_kind m0 H0); exact NR).
    assert (RA : read_action names (action_text K sls v) = Some (the_action K sls v)).
    { rewrite <- (fits_kind m0 H0). apply printed_back with (G := G (m_number m0)) (b := [(idx, m_index m0)]); auto; [apply (ft_named _ H0)|].
      unfold sees_something, accesses, access_at. change (its_kind N (m_pc m0)) with (kind_of N (m_pc m0)). rewrite (fits_kind m0 H0). exact SEEN. }
    rewrite RA. destruct (printed_fresh N (m_pc m0) names (G (m_number m0)) [(idx, m_index m0)] sls (ft_named _ H0) NR0 v idx) as [FR LAST]. rewrite (fits_kind m0 H0) in FR, LAST.
    assert (PR : Forall (fun mb => proper_process N (m_pc mb)) mbs) by (clear - FT HN; induction FT; constructor; auto using fits_proper).
    assert (DE : Forall (fun mb => declares ds F (Some (use_of lets preds mb)) (G (m_number mb))) mbs) by (clear - FT; induction FT as [|m l H FT IH]; constructor; auto; apply (ft_declares _ H)).
    destruct (CmdProps.C69_added N F idx lets preds (fun m => G (m_number m)) mbs Puppet (the_action K sls v) T (no_dom _ HN) random_known PR DE FR LAST TD TS GR) as [TOT ADD].
    assert (AT : forall mb, In mb mbs -> total_action N (m_pc mb) (G (m_number mb)) [(idx, m_index mb)] (the_action K sls v)).
    { intros mb I. rewrite Forall_forall in FT. specialize (FT mb I). rewrite <- (fits_kind mb FT). apply printed_total with (names := names); auto; [apply (ft_named _ FT)|rewrite (fits_kind mb FT); exact NR]. }
    specialize (TOT AT). destruct (add_action N F idx lets preds mbs Puppet (the_action K sls v) T) as [(mbs1, T1)|]; [clear TOT|congruence].
    destruct (ADD mbs1 T1 eq_refl) as (MG & GR1 & TD1 & TS1 & _). clear ADD.
    assert (FT1 : Forall fits mbs1). { clear - MG FT. induction MG as [|m m' l l' M MG IH]; constructor; inversion FT; subst; auto. eapply fits_grown; eauto. }
    assert (NE1 : mbs1 <> []) by (inversion MG; discriminate).
    destruct (IH AV2 mbs1 T1 NE1 FT1 GR1 TD1 TS1) as (mbs' & T' & E & R). exists mbs', T'. split; [exact E|].
    clear - MG R FT AV1 PLAIN NR HN. revert mbs' R. induction MG as [|m m1 l l1 M MG IH]; intros mbs' R; inversion R as [|? m2 ? l2 R1 R2]; subst; constructor; inversion FT as [|? ? FT0 FTl]; subst; auto.
    destruct R1 as [Q1 Q2 Q3 Q4 Q5 Q6 Q7 Q8 Q9]. destruct M as [M1 M2 M3 M4 M5 M6 M7].
    constructor; try congruence; auto.
    + destruct Q6 as (A & B & C), M5 as (A' & B' & C'). repeat split; congruence.
    + intros s t OK OT. rewrite (Q8 s t OK OT), (M6 s t OK OT). unfold grown_step. rewrite (fits_kind m FT0), PLAIN. rewrite (fits_moves m v FT0 AV1 s t OK OT). split.
      * intros [[[A|A] _]|(u & U & W)]; [left; exact A|right; exists v; split; [left; auto|exact A]|right; exists u; split; [right; exact U|apply (written_same N (m_pc m1) (m_pc m)); auto]].
      * intros [A|(u & [<-|U] & W)]; [left; split; [auto|discriminate]|left; split; [auto|discriminate]|right; exists u; split; [exact U|apply (written_same N (m_pc m) (m_pc m1)); auto]].
    + intros s t OK OT. rewrite (Q9 s t OK OT), (M7 s t OK OT). split; [intros [A|[A _]]; [exact A|congruence]|auto].
Qed.
End Solution.

(** ** Written actions and actions that are taken *)
Section Moves.
Variable N : network.
Hypothesis HN : net_ok N.
Variable p : process.
Hypothesis Hp : In p (pcs N).
Hypothesis DET : forall a, In a (accs (its_kind N p)) -> a_type a <> RandomWriteAccess.
Lemma moves_written : forall v s t, action_values (its_kind N p) v ->
  (local_move N p v s t <-> written_move N p v s t /\ (forall x, x < length (vdoms N) -> ~ own N p x -> ~ fickle N x -> nth x t 0 = nth x s 0) /\
     exists x, own N p x /\ nth x t 0 <> nth x s 0).
Proof.
  intros v s t (_ & _ & AV).
  assert (AT : forall i, i < accesses N p -> a_type (access_at N p i) <> RandomWriteAccess) by (intros i I; apply DET, nth_In; exact I).
  assert (NRD : ~ randomised N p) by (intros (i & I & _ & R); apply (AT i I R)).
  assert (SM : forall i, i < accesses N p -> writable (access_at N p i) -> visible (access_at N p i) -> assigned (its_kind N p) v i < a_dom (access_at N p i)).
  { intros i I W (V1 & V2 & V3). specialize (AV i I W). fold (access_at N p i) in AV. unfold assign_values in AV. specialize (AT i I). destruct (a_type _); try congruence; destruct (a_role _); try congruence; lia. }
  assert (SM' : forall i, i < accesses N p -> writable (access_at N p i) -> assigned (its_kind N p) v i <= a_dom (access_at N p i)).
  { intros i I W. specialize (AV i I W). fold (access_at N p i) in AV. unfold assign_values in AV. specialize (AT i I). destruct (a_type (access_at N p i)); try congruence; destruct (a_role (access_at N p i)); lia. }
  split.
  - intros [A B C D E]. assert (CH : exists x, own N p x /\ nth x t 0 <> nth x s 0).
    { destruct (existsb (fun i => write_ck (access_at N p i) && synt_read_ck (access_at N p i) && negb (tested v i =? assigned (its_kind N p) v i)) (seq 0 (accesses N p))) eqn:EX.
      - apply existsb_exists in EX. destruct EX as (i & I & Q). apply in_seq in I. rewrite !andb_true_iff, negb_true_iff, Nat.eqb_neq in Q. destruct Q as ((Q1 & Q2) & Q3). apply writable_ck in Q1. apply visible_iff in Q2.
        exists (vbl_at p i). split; [exists i; split; [lia|auto]|]. change (value t p i <> value s p i). rewrite A, B by (auto; try apply AT; lia). specialize (SM i ltac:(lia) Q1 Q2). destruct (Nat.eqb_spec (assigned (its_kind N p) v i) (a_dom (access_at N p i))); [lia|]. congruence.
      - destruct D as (i & I & W & V & L & NE); [exact NRD| |].
        + intros i I W V. destruct (Nat.eqb_spec (tested v i) (assigned (its_kind N p) v i)) as [Q|Q]; auto. exfalso.
          assert (X : existsb (fun i => write_ck (access_at N p i) && synt_read_ck (access_at N p i) && negb (tested v i =? assigned (its_kind N p) v i)) (seq 0 (accesses N p)) = true); [|congruence].
          apply existsb_exists. exists i. split; [apply in_seq; lia|]. rewrite !andb_true_iff, negb_true_iff, Nat.eqb_neq, visible_iff. split; [split; [apply writable_ck; auto|auto]|auto].
        + exists (vbl_at p i). split; [exists i; auto|]. change (value t p i <> value s p i). rewrite B by (auto; apply AT; auto). destruct (Nat.eqb_spec (assigned (its_kind N p) v i) (a_dom (access_at N p i))); [lia|auto]. }
    split; [constructor; auto|]. split; auto.
  - intros ([A B C] & FR & (x & (i & I & W & <-) & NE)). constructor; auto; [|contradiction].
    intros _ X. exists i. change (value t p i <> value s p i) in NE. rewrite B in NE by (auto; apply AT; auto).
    destruct (Nat.eqb_spec (assigned (its_kind N p) v i) (a_dom (access_at N p i))) as [Q|Q]; [congruence|]. split; auto. split; auto. split; [|split].
    + intros V. apply NE. rewrite A by auto. rewrite X; auto.
    + specialize (SM' i I W). lia.
    + congruence.
Qed.
End Moves.

Section System.
Variable N : network.
Notation ds := (vdoms N).
Notation ok := (FmlaSpec.ok (vdoms N)).
Hypothesis HN : net_ok N.
Hypothesis OPEN : forall p, In p (pcs N) -> open_kind (its_kind N p).
Variable actions : list nat.
Notation reread := (solved N actions).
Hypothesis EMPTY : forall p s t, In p (pcs N) -> ok s -> ok t -> ~ FmlaSpec.steps (p_puppet p) s t.
Variable ps : list process.
Hypothesis RR : Forall2 reread (pcs N) ps.
Lemma step_iff : forall p p', In p (pcs N) -> reread p p' -> forall s t, ok s -> ok t -> (FmlaSpec.steps (p_puppet p') s t <->
    exists a r, In a actions /\ r < actions_in (kinds N) /\ same_action_class (kinds N) a r /\ act_pc (act_of (kinds N) r) = p_kind p /\ written_move N p (vals (act_of (kinds N) r)) s t).
Proof. intros p p' P R s t OK OT. rewrite (sv_puppet _ _ _ _ R s t OK OT). split; [intros [H|H]; [destruct (EMPTY p s t P OK OT H)|exact H]|auto]. Qed.
Definition again : network := mkNetwork (vdoms N) (vroles N) (kinds N) ps.
Lemma back_from : forall p', In p' ps -> exists p, In p (pcs N) /\ reread p p'.
Proof. clear - RR. induction RR as [|p p' l l' R RL IH]; intros q I; [destruct I|]. destruct I as [<-|I]; [exists p; split; [left|]; auto|]. destruct (IH RL q I) as (x & X & Y). exists x. split; [right|]; auto. Qed.
Lemma forth_to : forall p, In p (pcs N) -> exists p', In p' ps /\ reread p p'.
Proof. clear - RR. induction RR as [|p p' l l' R RL IH]; intros q I; [destruct I|]. destruct I as [<-|I]; [exists p'; split; [left|]; auto|]. destruct (IH RL q I) as (x & X & Y). exists x. split; [right|]; auto. Qed.
Lemma again_access : forall p p' i, reread p p' -> accesses again p' = accesses N p /\ access_at again p' i = access_at N p i /\ vbl_at p' i = vbl_at p i /\ its_kind again p' = its_kind N p.
Proof. intros p p' i R. unfold accesses, access_at, its_kind, vbl_at, again. cbn [kinds]. rewrite (sv_kind _ _ _ _ R), (sv_vbls _ _ _ _ R). auto. Qed.
Lemma again_fickle : forall x, fickle again x <-> fickle N x.
Proof.
  intros x. split.
  - intros (p' & i & P & L & T & E). destruct (back_from p' P) as (p & Q & R). destruct (again_access p p' i R) as (A & B & C & _). rewrite A in L. rewrite B in T. rewrite C in E. exists p, i. auto.
  - intros (p & i & P & L & T & E). destruct (forth_to p P) as (p' & Q & R). destruct (again_access p p' i R) as (A & B & C & _). exists p', i. rewrite A, B, C. auto.
Qed.
Lemma again_own : forall p p' x, reread p p' -> (own again p' x <-> own N p x).
Proof. intros p p' x R. split; intros (i & H); destruct (again_access p p' i R) as (A & B & C & _); exists i; [rewrite <- A, <- B, <- C|rewrite A, B, C]; exact H. Qed.
Lemma written_local : forall p v s t t', (forall x, own N p x -> nth x t 0 = nth x t' 0) -> written_move N p v s t -> written_move N p v s t'.
Proof.
  intros p v s t t' E [A B C]. constructor; auto.
  - intros i I W R. unfold value in *. rewrite <- E by (exists i; auto). apply B; auto.
  - intros H. destruct (C H) as (x & X & Y). exists x. split; auto. rewrite <- E; auto.
Qed.
Lemma again_ok : net_ok again.
Proof.
  constructor; cbn [vdoms kinds pcs again].
  - apply (no_dom _ HN).
  - intros p' I. destruct (back_from p' I) as (p & P & R). rewrite (sv_kind _ _ _ _ R). apply (no_kind _ HN); auto.
  - intros p' I. destruct (back_from p' I) as (p & P & R). destruct (again_access p p' 0 R) as (A & _). rewrite (sv_vbls _ _ _ _ R), A. apply (no_vbls _ HN); auto.
  - intros p' i I L. destruct (back_from p' I) as (p & P & R). destruct (again_access p p' i R) as (A & B & C & _). rewrite B, C. rewrite A in L. apply (no_id _ HN p i P L).
  - apply (no_links _ HN).
  - intros p' I. destruct (back_from p' I) as (p & P & R). destruct (sv_rest _ _ _ _ R) as (Q & _). rewrite Q. apply (no_assume _ HN); auto.
  - intros p' I f FI. destruct (back_from p' I) as (p & P & R). destruct (sv_rest _ _ _ _ R) as (_ & Q2 & Q3).
    assert (OLD : In f [p_permit p; p_forbid p] \/ f = p_puppet p') by (destruct FI as [<-|[<-|[<-|[]]]]; [right; auto|left; rewrite Q2; left; auto|left; rewrite Q3; right; left; auto]).
    destruct OLD as [OLD| ->].
    + destruct (no_local _ HN p P f) as (A & B); [right; exact OLD|]. split; [exact A|]. intros a i i' q OA OI OI' OQ H. apply B; auto. intros x X. apply H. rewrite again_fickle, (again_own p p' x R). exact X.
    + split; [apply (sv_trans _ _ _ _ R)|]. 
      assert (ONE : forall a i i' q, ok a -> ok i -> ok i' -> ok q -> (forall x, own again p' x \/ fickle again x -> nth x i 0 = nth x i' 0) -> meaning (p_puppet p') a i q -> meaning (p_puppet p') a i' q).
      { intros a i i' q OA OI OI' OQ H M. apply (sv_trans _ _ _ _ R a q i q) in M; auto. apply (sv_trans _ _ _ _ R a q i' q); auto.
        apply (step_iff _ _ ltac:(eassumption) R q i' OQ OI'). apply (step_iff _ _ ltac:(eassumption) R q i OQ OI) in M. destruct M as (a0 & r & M1 & M2 & M3 & M4 & M5). exists a0, r. split; [|split; [|split; [|split]]]; auto.
        apply written_local with (t := i); auto. intros x X. apply H. left. apply (again_own p p' x R). exact X. }
      intros a i i' q OA OI OI' OQ H. split; apply ONE; auto. intros x X. symmetry; auto.
Qed.
Lemma again_open : forall p, In p (pcs again) -> open_kind (its_kind again p).
Proof. intros p' I. destruct (back_from p' I) as (p & P & R). destruct (again_access p p' 0 R) as (_ & _ & _ & E). rewrite E. apply OPEN; auto. Qed.
Lemma again_describes : forall p p' v s t, reread p p' -> (describes again p' v s t <-> describes N p v s t).
Proof.
  intros p p' v s t R. unfold describes, value. destruct (again_access p p' 0 R) as (A & _ & _ & K). rewrite A, K.
  split; intros [H1 H2]; split; intros i; destruct (again_access p p' i R) as (_ & B & C & _); [rewrite <- C|rewrite <- B, <- C|rewrite C|rewrite B, C]; auto.
Qed.
Lemma again_speaks : forall p p' j, nth_error (pcs N) j = Some p -> nth_error ps j = Some p' -> reread p p'.
Proof. clear - RR. induction RR as [|a b l l' R RL IH]; intros p p' [|j] E1 E2; simpl in *; try discriminate; [congruence|eauto]. Qed.
Lemma nth_forth : forall j p, nth_error (pcs N) j = Some p -> exists p', nth_error ps j = Some p' /\ reread p p'.
Proof. clear - RR. induction RR as [|a b l l' R RL IH]; intros [|j] p E; simpl in *; try discriminate; [injection E as <-; eauto|eauto]. Qed.
Lemma nth_back : forall j p', nth_error ps j = Some p' -> exists p, nth_error (pcs N) j = Some p /\ reread p p'.
Proof. clear - RR. induction RR as [|a b l l' R RL IH]; intros [|j] p E; simpl in *; try discriminate; [injection E as <-; eauto|eauto]. Qed.
Lemma speaks_back : forall q', speaks again q' -> exists q, speaks N q /\ reread q q'.
Proof.
  intros q' (I & H). cbn [pcs again] in *. destruct H as [(j & J & ND & F)|H].
  - destruct (nth_back j q' J) as (q & Q & R). exists q. split; auto. split; [eapply nth_error_In; eauto|]. left. exists j. split; auto. split; [rewrite <- (sv_vbls _ _ _ _ R); auto|].
    intros i x I1 X K. destruct (nth_forth i x X) as (x' & X' & RX). rewrite <- (sv_vbls _ _ _ _ RX). apply (F i x' I1 X'). rewrite (sv_kind _ _ _ _ RX), (sv_kind _ _ _ _ R). exact K.
  - destruct (back_from q' I) as (q & Q & R). exists q. split; auto. split; auto. right. intros x X K. destruct (forth_to x X) as (x' & X' & RX). rewrite <- (sv_vbls _ _ _ _ RX). apply (H x' X'). rewrite (sv_kind _ _ _ _ RX), (sv_kind _ _ _ _ R). exact K.
Qed.
Lemma speaks_forth : forall q, speaks N q -> exists q', speaks again q' /\ reread q q'.
Proof.
  intros q (I & H). destruct H as [(j & J & ND & F)|H].
  - destruct (nth_forth j q J) as (q' & Q & R). exists q'. split; auto. split; [eapply nth_error_In; eauto|]. left. exists j. split; auto. split; [rewrite (sv_vbls _ _ _ _ R); auto|].
    intros i x I1 X K. destruct (nth_back i x X) as (x' & X' & RX). rewrite (sv_vbls _ _ _ _ RX). apply (F i x' I1 X'). rewrite <- (sv_kind _ _ _ _ RX), <- (sv_kind _ _ _ _ R). exact K.
  - destruct (forth_to q I) as (q' & Q & R). exists q'. split; auto. split; auto. right. intros x X K. destruct (back_from x X) as (x' & X' & RX). rewrite (sv_vbls _ _ _ _ RX). apply (H x' X'). rewrite <- (sv_kind _ _ _ _ RX), <- (sv_kind _ _ _ _ R). exact K.
Qed.
(** For kinds that see everything, the written action is the action *)
Lemma written_describes : forall p v s t, In p (pcs N) -> action_values (its_kind N p) v -> (written_move N p v s t <-> describes N p v s t).
Proof.
  intros p v s t P (_ & _ & AV).
  assert (O : forall i, i < accesses N p -> visible (access_at N p i) /\ a_type (access_at N p i) <> RandomWriteAccess) by (intros i I; apply (OPEN p P); apply nth_In; exact I).
  assert (L : forall i, i < accesses N p -> writable (access_at N p i) -> assigned (its_kind N p) v i < a_dom (access_at N p i)).
  { intros i I W. specialize (AV i I W). fold (access_at N p i) in AV. destruct (O i I) as ((V1 & V2 & V3) & V4). unfold assign_values in AV. destruct (a_type _); try congruence; destruct (a_role _); try congruence; lia. }
  split.
  - intros [A B _]. split; [intros i I; apply A; auto; apply O; auto|]. intros i I W. rewrite B by (auto; apply O; auto). specialize (L i I W). destruct (Nat.eqb_spec (assigned (its_kind N p) v i) (a_dom (access_at N p i))); [lia|auto].
  - intros [A B]. constructor; [intros i I _; apply A; auto| |].
    + intros i I W _. rewrite B by auto. specialize (L i I W). destruct (Nat.eqb_spec (assigned (its_kind N p) v i) (a_dom (access_at N p i))); [lia|auto].
    + intros (i & I & _ & V & _). exfalso. apply V. apply O; auto.
Qed.
Hypothesis REPS : forall a, In a actions -> a < actions_in (kinds N) /\ representative_action_index (kinds N) a = Some a.
Lemma given_again : forall fuel, 2 * length (assignments ds) < fuel -> exists l, given_actions again fuel = Some l /\
  forall a, In a l <-> In a actions /\ exists q r s t, speaks N q /\ r < actions_in (kinds N) /\ same_action_class (kinds N) a r /\
    act_pc (act_of (kinds N) r) = p_kind q /\ ok s /\ ok t /\ holds (p_assume q) s /\ describes N q (vals (act_of (kinds N) r)) s t.
Proof.
  intros fuel FU. assert (LO : forall pc, In pc (kinds N) -> laid_out pc) by apply (no_links _ HN).
  destruct (GivenProps.C66_system again again_ok again_open fuel FU) as (l & E & H). exists l. split; auto. intros a. rewrite H. clear H E. cbn [kinds again]. split.
  - intros (q' & r & s & t & SP & L & PC & (OK & OT & AS & ST) & D & RP). destruct (speaks_back q' SP) as (q & SQ & R). pose proof (proj1 SQ) as Hq.
    apply (step_iff _ _ ltac:(eassumption) R s t OK OT) in ST. destruct ST as (a0 & r0 & IA & L0 & CL0 & PC0 & WM).
    destruct (C39_decode (kinds N) r0 L0) as (_ & AV0 & _). rewrite PC0 in AV0. apply written_describes in WM; auto. apply (again_describes q q' _ s t R) in D. rewrite (sv_kind _ _ _ _ R) in PC.
    assert (r = r0).
    { pose proof (proj2 (GivenProofs.number_iff N HN q Hq (OPEN q Hq) r s t OK OT)) as E1. pose proof (proj2 (GivenProofs.number_iff N HN q Hq (OPEN q Hq) r0 s t OK OT)) as E2. rewrite E1 by auto. rewrite E2 by auto. reflexivity. }
    subst r0. destruct (REPS a0 IA) as (LA & RA). assert (a0 = a). { apply (C40_classes (kinds N) a0 r LO LA L) in CL0. congruence. } subst a0.
    split; auto. exists q, r, s, t. destruct (sv_rest _ _ _ _ R) as (Q & _). rewrite Q in AS. repeat (split; [solve [auto]|]). auto.
  - intros (IA & q & r & s & t & SP & L & CL & PC & OK & OT & AS & D). destruct (speaks_forth q SP) as (q' & SQ & R). pose proof (proj1 SP) as Hq. destruct (REPS a IA) as (LA & RA).
    destruct (C39_decode (kinds N) r L) as (_ & AV & _). rewrite PC in AV.
    exists q', r, s, t. split; auto. split; auto. split; [rewrite (sv_kind _ _ _ _ R); auto|]. split; [|split; [apply (again_describes q q' _ s t R); auto|apply (C40_classes (kinds N) a r LO LA L) in CL; congruence]].
    split; auto. split; auto. destruct (sv_rest _ _ _ _ R) as (Q & _). rewrite Q. split; auto. apply (step_iff _ _ ltac:(eassumption) R s t OK OT). exists a, r. repeat (split; [solve [auto]|]). apply written_describes; auto.
Qed.
Lemma given_same : forall fuel, 2 * length (assignments ds) < fuel ->
  (forall a, In a actions -> exists p, In p (pcs N) /\ p_kind p = act_pc (act_of (kinds N) a) /\ NoDup (p_vbls p)) ->
  (forall p s, In p (pcs N) -> ok s -> holds (p_assume p) s) ->
  exists l, given_actions again fuel = Some l /\ forall a, In a l <-> In a actions.
Proof.
  intros fuel FU ND AS. destruct (given_again fuel FU) as (l & E & H). exists l. split; auto. intros a. rewrite H. split; [tauto|]. intros IA. split; auto.
  destruct (REPS a IA) as (LA & RA). destruct (ND a IA) as (p & P & PK & PN). destruct (GivenProps.speaker N HN p P) as (q & SP & QK & QN).
  assert (QD : NoDup (p_vbls q)) by (destruct QN as [QN| ->]; auto). pose proof (proj1 SP) as Hq. destruct (C39_decode (kinds N) a LA) as (_ & (_ & AV1 & AV2) & _). rewrite <- PK, <- QK in AV1, AV2.
  change (nth (p_kind q) (kinds N) pc0) with (its_kind N q) in *. change (length (accs (its_kind N q))) with (accesses N q) in *.
  assert (O : forall i, i < accesses N q -> visible (access_at N q i) /\ a_type (access_at N q i) <> RandomWriteAccess) by (intros i I; apply (OPEN q Hq); apply nth_In; exact I).
  assert (V1 : forall i, i < accesses N q -> tested (vals (act_of (kinds N) a)) i < a_dom (access_at N q i)).
  { intros i I. specialize (AV1 i I). fold (access_at N q i) in AV1. destruct (O i I) as ((O1 & O2 & O3) & O4). unfold guard_values in AV1. destruct (a_role _); try congruence; destruct (a_type _); try congruence; auto. }
  assert (V2 : forall i, i < accesses N q -> writable (access_at N q i) -> assigned (its_kind N q) (vals (act_of (kinds N) a)) i < a_dom (access_at N q i)).
  { intros i I W. specialize (AV2 i I W). fold (access_at N q i) in AV2. destruct (O i I) as ((O1 & O2 & O3) & O4). unfold assign_values in AV2. destruct (a_role _); try congruence; destruct (a_type _); try congruence; auto. }
  destruct (some_state ds (no_dom _ HN)) as [s0 OK0]. pose proof (GivenProofs.read_wf N HN q Hq) as WF. pose proof (no_vbls _ HN q Hq) as LEN.
  assert (DD : forall i, i < accesses N q -> nth (nth i (p_vbls q) 0) ds 0 = a_dom (access_at N q i)) by (intros i I; apply (no_id _ HN q i Hq I)).
  destruct (GivenProps.with_values ds (p_vbls q) (tested (vals (act_of (kinds N) a))) s0 OK0 QD WF) as (s & OK & SV); [intros i I; rewrite LEN in I; rewrite DD; auto|].
  destruct (GivenProps.with_values ds (p_vbls q) (fun i => if write_ck (access_at N q i) then assigned (its_kind N q) (vals (act_of (kinds N) a)) i else 0) s0 OK0 QD WF) as (t & OT & TV).
  { intros i I. rewrite LEN in I. rewrite DD by auto. destruct (write_ck (access_at N q i)) eqn:W; [apply V2; auto; apply writable_ck; auto|specialize (V1 i I); lia]. }
  exists q, a, s, t. split; auto. split; auto. split; [apply C40_classes; auto; apply (no_links _ HN)|]. split; [congruence|]. split; auto. split; auto. split; [apply AS; auto|]. split.
  - intros i I. apply SV. rewrite LEN. auto.
  - intros i I W. unfold value, vbl_at. rewrite TV by (rewrite LEN; auto). apply writable_ck in W. rewrite W. reflexivity.
Qed.
End System.
