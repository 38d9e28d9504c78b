(** C73: the solution in the output file is the solution. *)
From Coq Require Import String List Arith Bool ZArith Lia.
From Verif Require CmdProofs3 NetProps AccessProps.
From Verif Require Import ParseModel AccessModel AccessSpec AccessProofs AccessProofs2 PrintModel PrintProofs FmlaModel FmlaSpec IntModel ExprModel ExprSpec
  ActModel ActSpec ActProofs ActProofs2 ActProofs4 ActProps NetModel NetSpec NetProofs CandModel GivenSpec CmdModel CmdSpec PrintSpec PrintProofs2 PrintProofs3 PrintProofs4.
Import ListNotations.
Local Open Scope string_scope.
Local Open Scope list_scope.

Section Kind.
Variable N : network.
Hypothesis HN : net_ok N.
Variable F : file.
Variable idx : string.
Variable lets : list (string * list Z).
Variable preds : list (string * list fmla).
Variable names : list string.
Variable G : nat -> scope.
Variable k : nat.
Variable ts : list tok.
Variable sls : list slot.
Variable mbs : list membr.
Hypothesis WK : written_kind N F idx lets preds names G k ts sls mbs.
Lemma kind_size : nr (nth k (kinds N) pc0) = length sls.
Proof. unfold nr. rewrite (wk_kind _ _ _ _ _ _ _ _ _ _ _ WK), map_length. reflexivity. Qed.
Lemma kind_fits : forall mb, In mb mbs -> sees_draws N (m_pc mb) -> fits N F idx lets preds names G sls k mb.
Proof.
  intros mb I SD. destruct (wk_read _ _ _ _ _ _ _ _ _ _ _ WK) as (decls & r & ms & R & P & T & A & VF & D & AA). destruct (wk_members _ _ _ _ _ _ _ _ _ _ _ WK mb I) as (M1 & M2 & [M3 M4 M5]).
  pose proof (declared_named (vdoms N) (no_dom _ HN) F idx lets preds G names ts r decls sls ms _ R P T D A VF AA) as NM. rewrite Forall_forall in NM. specialize (NM _ (in_map _ _ _ I)). cbn [d_number d_index d_vbls] in NM.
  pose proof (evaluated (vdoms N) F idx lets preds sls ms _ AA) as EV.
  constructor; auto; [exists (m_pc mb); auto|]. unfold use_of. apply declares_vbls.
  assert (X : exists d, In d ms /\ d_number d = m_number mb).
  { clear - EV I. remember (map (fun mb => mkDraft (m_number mb) (m_index mb) (p_vbls (m_pc mb))) mbs) as l' eqn:E. revert mbs I E. induction EV as [|d d' l l' (Q & _) EV IH]; intros [|m mbs] I E; try discriminate; [destruct I|].
    injection E as E1 E2. destruct I as [->|I]; [exists d; split; [left; auto|]; rewrite <- Q, E1; reflexivity|]. destruct (IH mbs I E2) as (x & X & Y). exists x. split; [right|]; auto. }
  destruct X as (d & DI & DN). rewrite Forall_forall in D. destruct (D d DI) as [_ DD]. rewrite DN in DD. exact DD.
Qed.
End Kind.

(** The text of an action is read and accepted, and has the steps that the action describes. *)
Theorem C73_action : forall N F idx lets preds names G k ts sls mbs mb v, net_ok N ->
  written_kind N F idx lets preds names G k ts sls mbs -> In mb mbs ->
  sees_something N (m_pc mb) -> sees_draws N (m_pc mb) -> action_values (its_kind N (m_pc mb)) v ->
  exists act x, read_action names (action_text (its_kind N (m_pc mb)) sls v) = Some act /\
    parse_action N F idx lets preds mb true Puppet act = Some x /\
    forall s t, ok (vdoms N) s -> ok (vdoms N) t -> (FmlaSpec.steps x s t <-> written_move N (m_pc mb) v s t).
Proof.
  intros N F idx lets preds names G k ts sls mbs mb v HN WK I SS SD AV.
  pose proof (kind_fits N HN F idx lets preds names G k ts sls mbs WK mb I SD) as FT. pose proof (kind_size N F idx lets preds names G k ts sls mbs WK) as NR.
  pose proof (fits_kind _ _ _ _ _ _ _ _ _ _ FT) as KK. change (its_kind N (m_pc mb)) with (kind_of N (m_pc mb)) in *.
  assert (NR' : nr (kind_of N (m_pc mb)) = length sls) by (rewrite KK; exact NR).
  pose proof (ft_named _ _ _ _ _ _ _ _ _ _ FT) as NM. pose proof (fits_proper N HN _ _ _ _ _ _ _ _ _ FT) as PR.
  exists (the_action (kind_of N (m_pc mb)) sls v).
  destruct (printed_fresh N (m_pc mb) names (G (m_number mb)) [(idx, m_index mb)] sls NM NR' v idx) as [FR LAST].
  pose proof (printed_total N HN (m_pc mb) names (G (m_number mb)) [(idx, m_index mb)] sls NM NR' v) as TOT.
  destruct (CmdProofs3.parse_total N F idx lets preds mb (G (m_number mb)) (no_dom _ HN) (ft_declares _ _ _ _ _ _ _ _ _ _ FT) PR true Puppet _ FR LAST TOT) as (x & E).
  exists x. split; [apply (printed_back N (m_pc mb) names (G (m_number mb)) [(idx, m_index mb)] sls NM NR' v SS)|]. split; [exact E|]. intros s t OK OT.
  destruct (CmdProofs3.parse_means N F idx lets preds mb (G (m_number mb)) (no_dom _ HN) (ft_declares _ _ _ _ _ _ _ _ _ _ FT) PR true Puppet _ x FR LAST E) as (_ & H). rewrite (H s t OK OT).
  rewrite KK in *. apply (fits_moves N HN F idx lets preds names G sls k NR mb v FT AV s t OK OT).
Qed.
Print Assumptions C73_action.

(** For kinds of processes that write nothing at random, the transitions of an action in the synthesiser are the written ones that
    change something, and nothing of others. *)
Theorem C73_moves : forall N p v s t, net_ok N -> In p (pcs N) -> (forall a, In a (accs (its_kind N p)) -> a_type a <> RandomWriteAccess) ->
  action_values (its_kind N p) v ->
  (local_move N p v s t <->
   written_move N p v s t /\ (forall x, x < length (vdoms N) -> ~ own N p x -> ~ fickle N x -> nth x t 0 = nth x s 0) /\
   exists x, own N p x /\ nth x t 0 <> nth x s 0).
Proof. intros N p v s t HN Hp DET AV. apply moves_written; auto. Qed.
Print Assumptions C73_moves.

(** Reading all texts that are written for a kind of processes succeeds and adds the steps of the actions of the solution, and no
    others, to every process of the kind, if the kind sees what it writes. *)
Theorem C73_solution : forall N F idx lets preds names G k ts sls mbs T actions, net_ok N ->
  written_kind N F idx lets preds names G k ts sls mbs -> mbs <> [] ->
  (forall mb, In mb mbs -> sees_something N (m_pc mb) /\ sees_draws N (m_pc mb)) ->
  (forall a, In a (accs (nth k (kinds N) pc0)) -> writable a -> visible a) ->
  (forall a, In a actions -> a < actions_in (kinds N) /\ representative_action_index (kinds N) a = Some a) ->
  Forall (grown_so_far N) mbs -> trans_fmla (vdoms N) (t_direct T) -> trans_fmla (vdoms N) (t_shadow T) ->
  exists mbs' T', read_puppets N F idx lets preds names (kind_texts (kinds N) k sls actions) mbs T = Some (mbs', T') /\
    Forall2 (fun m m' => m_number m' = m_number m /\ m_index m' = m_index m /\ solved N actions (m_pc m) (m_pc m') /\
      forall s t, ok (vdoms N) s -> ok (vdoms N) t -> (FmlaSpec.steps (p_shadow (m_pc m')) s t <-> FmlaSpec.steps (p_shadow (m_pc m)) s t)) mbs mbs'.
Proof.
  intros N F idx lets preds names G k ts sls mbs T actions HN WK NE SEE SW REPS GR TD TS.
  assert (FT : Forall (fits N F idx lets preds names G sls k) mbs) by (apply Forall_forall; intros mb I; apply (kind_fits N HN F idx lets preds names G k ts sls mbs WK); auto; apply SEE; auto).
  pose proof (kind_size N F idx lets preds names G k ts sls mbs WK) as NR.
  assert (PLAIN : existsb synt_writeonly_ck (accs (nth k (kinds N) pc0)) = false).
  { apply not_true_iff_false. intros X. apply existsb_exists in X. destruct X as (a & A & X). unfold synt_writeonly_ck in X. apply andb_true_iff in X. destruct X as [X1 X2]. apply negb_true_iff in X1.
    apply writable_ck in X2. apply (SW a A) in X2. apply visible_iff in X2. congruence. }
  assert (SEEN : exists i, i < nr (nth k (kinds N) pc0) /\ visible (acc (nth k (kinds N) pc0) i)).
  { destruct mbs as [|m ms]; [contradiction|]. destruct (SEE m) as [(i & I & V) _]; [left; auto|]. exists i. inversion FT as [|? ? FM _]; subst. pose proof (fits_kind _ _ _ _ _ _ _ _ _ _ FM) as KK.
    unfold accesses, access_at in *. change (its_kind N (m_pc m)) with (kind_of N (m_pc m)) in *. rewrite KK in *. auto. }
  pose (l := map vals (filter (fun a => Nat.eqb (act_pc a) k) (written_acts (kinds N) actions))).
  assert (LO : forall pc, In pc (kinds N) -> laid_out pc) by apply (no_links _ HN).
  assert (IN : forall v, In v l <-> exists a r, In a actions /\ r < actions_in (kinds N) /\ same_action_class (kinds N) a r /\ act_pc (act_of (kinds N) r) = k /\ v = vals (act_of (kinds N) r)).
  { intros v. unfold l. rewrite in_map_iff. split.
    - intros (x & <- & X). apply filter_In in X. destruct X as [X PK]. apply Nat.eqb_eq in PK. unfold written_acts in X. apply (proj1 (sort_in _ _)) in X. apply in_map_iff in X. destruct X as (r & <- & X). apply in_flat_map in X. destruct X as (a & A & X).
      destruct (REPS a A) as [LA RA]. apply (C40_represented (kinds N) a a r LO LA RA) in X. exists a, r. repeat split; try tauto; apply X.
    - intros (a & r & A & L & CL & PK & ->). exists (act_of (kinds N) r). split; auto. apply filter_In. split; [|apply Nat.eqb_eq; auto]. unfold written_acts. apply (proj2 (sort_in _ _)). apply in_map_iff. exists r. split; auto. apply in_flat_map. exists a. split; auto.
      destruct (REPS a A) as [LA RA]. apply (C40_represented (kinds N) a a r LO LA RA). auto. }
  assert (AV : Forall (action_values (nth k (kinds N) pc0)) l).
  { apply Forall_forall. intros v I. apply IN in I. destruct I as (a & r & _ & L & _ & PK & ->). destruct (C39_decode (kinds N) r L) as (_ & X & _). rewrite PK in X. exact X. }
  destruct (read_all N HN F idx lets preds names G sls k NR PLAIN SEEN l AV mbs T NE FT GR TD TS) as (mbs' & T' & E & R). exists mbs', T'.
  split; [unfold kind_texts; unfold l in E; rewrite map_map in E; exact E|].
  clear E NE SEE GR. assert (KM : Forall (fun m => p_kind (m_pc m) = k) mbs) by (clear - FT; induction FT as [|m ms H FT IH]; constructor; auto; apply (ft_kind _ _ _ _ _ _ _ _ _ _ H)).
  clear WK FT. revert KM. induction R as [|m m' ms ms' R RS IH]; intros KM; constructor; inversion KM as [|? ? K1 K2]; auto.
  destruct R as [R0 R1 R2 R3 R4 R5 R6 R7 R8]. split; auto. split; auto. split; auto. constructor; auto. intros s t OK OT. rewrite (R7 s t OK OT). split; (intros [X|X]; [left; exact X|right]).
  - destruct X as (v & V & W). apply IN in V. destruct V as (a & r & A & L & CL & PK & ->). exists a, r. rewrite K1. auto.
  - destruct X as (a & r & A & L & CL & PK & W). rewrite K1 in PK. exists (vals (act_of (kinds N) r)). split; [apply IN; exists a, r; auto|exact W].
Qed.
Print Assumptions C73_solution.

(** A system whose processes had no protocol and got the solution that way: the actions that are found in it are those of the solution
    that a process that speaks for its kind can take. *)
Theorem C73_system : forall N actions ps, net_ok N -> (forall p, In p (pcs N) -> open_kind (its_kind N p)) ->
  (forall p s t, In p (pcs N) -> ok (vdoms N) s -> ok (vdoms N) t -> ~ FmlaSpec.steps (p_puppet p) s t) ->
  Forall2 (solved N actions) (pcs N) ps ->
  (forall a, In a actions -> a < actions_in (kinds N) /\ representative_action_index (kinds N) a = Some a) ->
  net_ok (mkNetwork (vdoms N) (vroles N) (kinds N) ps) /\
  forall fuel, 2 * length (assignments (vdoms N)) < fuel ->
  exists l, given_actions (mkNetwork (vdoms N) (vroles N) (kinds N) ps) fuel = Some l /\
    (forall a, In a l <-> In a actions /\ exists q r s t, speaks N q /\ r < actions_in (kinds N) /\ same_action_class (kinds N) a r /\
      act_pc (act_of (kinds N) r) = p_kind q /\ ok (vdoms N) s /\ ok (vdoms N) t /\ holds (p_assume q) s /\ describes N q (vals (act_of (kinds N) r)) s t).
Proof.
  intros N actions ps HN OPEN EMPTY SV REPS. split; [exact (again_ok N HN actions EMPTY ps SV)|]. intros fuel FU. exact (given_again N HN OPEN actions EMPTY ps SV REPS fuel FU).
Qed.
Print Assumptions C73_system.

(** They are all of them, if every kind has a process with different variables, and nothing is assumed. *)
Theorem C73_same : forall N actions ps, net_ok N -> (forall p, In p (pcs N) -> open_kind (its_kind N p)) ->
  (forall p s t, In p (pcs N) -> ok (vdoms N) s -> ok (vdoms N) t -> ~ FmlaSpec.steps (p_puppet p) s t) ->
  Forall2 (solved N actions) (pcs N) ps ->
  (forall a, In a actions -> a < actions_in (kinds N) /\ representative_action_index (kinds N) a = Some a) ->
  (forall a, In a actions -> exists p, In p (pcs N) /\ p_kind p = act_pc (act_of (kinds N) a) /\ NoDup (p_vbls p)) ->
  (forall p s, In p (pcs N) -> ok (vdoms N) s -> holds (p_assume p) s) ->
  forall fuel, 2 * length (assignments (vdoms N)) < fuel ->
  exists l, given_actions (mkNetwork (vdoms N) (vroles N) (kinds N) ps) fuel = Some l /\ forall a, In a l <-> In a actions.
Proof.
  intros N actions ps HN OPEN EMPTY SV REPS ND AS fuel FU. exact (given_same N HN OPEN actions EMPTY ps SV REPS fuel FU ND AS).
Qed.
Print Assumptions C73_same.

(** ** Where it is not *)
(** The guard of an action of processes that see nothing is empty, which the grammar does not have. *)
Theorem C73_blind_refuted : exists pc sls v ts decls r, laid_out pc /\ read_vbls [] ts = (decls, r) /\ all_slots decls = Some sls /\ Forall (plain_decl "i") decls /\ Forall tight_decl decls /\
  accs pc = map (slot_access [2] [Direct] (mkFile [] [("x", [0])] [])) sls /\
  action_values pc v /\ assigned pc v 0 < 2 /\ action_text pc sls v = [TLp; TTo; TId "x"; TLb; TId "i"; TRb; TSet; TNat 1; TSemi; TRp] /\ read_action [] (action_text pc sls v) = None.
Proof.
  exists (declare [Plain (NetProps.bit YieldAccess)]), [mkSlot YieldAccess "x" (SName "i") (SName "i")], [0; 1], [TWord "yield:"; TId "x"; TLb; TId "i"; TRb; TSemi], [PAccess (YieldAccess, "x", SName "i")], [].
  split; [apply C40_declared_processes; intros n vs [H|[]]; discriminate|]. split; [vm_compute; reflexivity|]. split; [reflexivity|]. split; [repeat constructor|]. split; [repeat constructor|]. split; [reflexivity|].
  split; [|split; [vm_compute; lia|split; vm_compute; reflexivity]].
  split; [reflexivity|]. split; intros [|i] H; cbn in *; try lia.
Qed.
Print Assumptions C73_blind_refuted.

(** A ring of three; the solution is the action that copies a 1. *)
Definition ring_file : file := mkFile [] [("x", [0; 1; 2])] [].
Definition ring_scope : scope := mkScope [] [] [] [("x", [0; 1; 2])] [].
Definition ring_decls : list tok := [TWord "read:"; TId "x"; TLb; TId "i"; TMinus; TNat 1; TRb; TSemi; TWord "write:"; TId "x"; TLb; TId "i"; TRb; TSemi; TWord "puppet:"].
Definition ring_slots : list slot :=
  [mkSlot ReadAccess "x" (SBin SubOp (SName "i") (SNat 1)) (SBin SubOp (SName "i") (SNat 1)); mkSlot WriteAccess "x" (SName "i") (SName "i")].
Definition ring_members : list membr := [mkMembr (NetProps.plain 0 [2; 0]) 0 0; mkMembr (NetProps.plain 0 [0; 1]) 1 1; mkMembr (NetProps.plain 0 [1; 2]) 2 2].
Lemma ring_written : written_kind NetProps.ring3 ring_file "i" [] [] [] (fun _ => ring_scope) 0 ring_decls ring_slots ring_members.
Proof.
  constructor.
  - eexists _, _, [mkDraft 0 0 []; mkDraft 1 1 []; mkDraft 2 2 []]. split; [vm_compute; reflexivity|]. split; [repeat constructor|]. split; [repeat constructor|]. split; [vm_compute; reflexivity|]. split; [repeat constructor|]. split; [|vm_compute; reflexivity].
    assert (D : forall n, declares (vdoms NetProps.ring3) ring_file (Some (mkUse [] [] n [])) ring_scope).
    { intros n. constructor; cbn; auto; try discriminate; try solve [constructor].
      all: intros y vs; destruct (String.eqb y "x"); [|discriminate]; intros E; injection E as <-; split; [discriminate|]; repeat constructor. }
    apply Forall_forall. intros d [<-|[<-|[<-|[]]]]; (split; [reflexivity|apply D]).
  - reflexivity.
  - intros mb I. assert (X : exists u w z, m_pc mb = NetProps.plain 0 [u; w] /\ w < 3 /\ u < 3 /\ z = m_index mb /\ In (NetProps.plain 0 [u; w]) (pcs NetProps.ring3)).
    { destruct I as [<-|[<-|[<-|[]]]]; [exists 2, 0, 0%Z|exists 0, 1, 1%Z|exists 1, 2, 2%Z]; cbn; repeat split; auto; lia. }
    destruct X as (u & w & z & E & W & U & _ & J). rewrite E. split; auto. split; [reflexivity|]. constructor; [reflexivity| |].
    + apply Forall_cons; [exact U|apply Forall_cons; [exact W|apply Forall_nil]].
    + change (NoDup [w]). constructor; [intros []|constructor].
Qed.
Lemma ring_sees : forall p, In p (pcs NetProps.ring3) -> sees_something NetProps.ring3 p /\ sees_draws NetProps.ring3 p.
Proof.
  intros p I. assert (X : accesses NetProps.ring3 p = 2 /\ forall i, i < 2 -> visible (access_at NetProps.ring3 p i)).
  { destruct I as [<-|[<-|[<-|[]]]]; (split; [reflexivity|]); intros [|[|i]] L; try lia; cbn; repeat split; discriminate. }
  destruct X as [X1 X2]. split.
  - exists 0. rewrite X1. split; [lia|]. apply X2. lia.
  - intros i L _. exists i. rewrite X1 in L. rewrite X1. auto.
Qed.
Example C73_example : 
  representative_action_index (kinds NetProps.ring3) 5 = Some 5 /\
  kind_texts (kinds NetProps.ring3) 0 ring_slots [5] =
    [[TLp; TId "x"; TLb; TId "i"; TMinus; TNat 1; TRb; TCmp CEq; TNat 1; TAnd; TId "x"; TLb; TId "i"; TRb; TCmp CEq; TNat 0; TTo; TId "x"; TLb; TId "i"; TRb; TSet; TNat 1; TSemi; TRp]] /\
  exists mbs' T', read_puppets NetProps.ring3 ring_file "i" [] [] [] (kind_texts (kinds NetProps.ring3) 0 ring_slots [5]) ring_members (mkTotals (Cst false) (Cst false)) = Some (mbs', T') /\
    exists l, given_actions (mkNetwork (vdoms NetProps.ring3) (vroles NetProps.ring3) (kinds NetProps.ring3) (map m_pc mbs')) (S (2 * length (assignments (vdoms NetProps.ring3)))) = Some l /\
      forall a, In a l <-> a = 5.
Proof.
  split; [vm_compute; reflexivity|]. split; [vm_compute; reflexivity|].
  assert (REPS : forall a, In a [5] -> a < actions_in (kinds NetProps.ring3) /\ representative_action_index (kinds NetProps.ring3) a = Some a).
  { intros a [<-|[]]. split; [cbn; lia|vm_compute; reflexivity]. }
  assert (TF : trans_fmla (vdoms NetProps.ring3) (Cst false)) by (intros a a' i q _ _ _ _; tauto).
  destruct (C73_solution NetProps.ring3 ring_file "i" [] [] [] (fun _ => ring_scope) 0 ring_decls ring_slots ring_members (mkTotals (Cst false) (Cst false)) [5]) as (mbs' & T' & E & R); auto.
  - apply NetProps.ring3_ok.
  - apply ring_written.
  - discriminate.
  - intros mb I. apply ring_sees. apply (wk_members _ _ _ _ _ _ _ _ _ _ _ ring_written mb I).
  - intros a [<-|[<-|[]]] _; repeat split; discriminate.
  - repeat constructor; cbn; auto.
  - exists mbs', T'. split; [exact E|]. destruct (C73_same NetProps.ring3 [5] (map m_pc mbs')) with (fuel := S (2 * length (assignments (vdoms NetProps.ring3)))) as (l & L & H); auto.
    + apply NetProps.ring3_ok.
    + intros p I a J. destruct I as [<-|[<-|[<-|[]]]]; destruct J as [<-|[<-|[]]]; (split; [repeat split; discriminate|discriminate]).
    + intros p s t [<-|[<-|[<-|[]]]] _ _ X; discriminate X.
    + clear - R. change (pcs NetProps.ring3) with (map m_pc ring_members). induction R as [|m m' l l' (_ & _ & X & _) R IH]; constructor; auto.
    + intros a [<-|[]]. exists (NetProps.plain 0 [2; 0]). split; [left; auto|]. split; [reflexivity|]. repeat constructor; cbn; intuition; discriminate.
    + intros p s [<-|[<-|[<-|[]]]] _; reflexivity.
    + exists l. split; [exact L|]. intros a. rewrite H. split; [intros [<-|[]]; auto|intros ->; left; auto].
Qed.
