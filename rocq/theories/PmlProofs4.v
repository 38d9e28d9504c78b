(** Promela: the whole model. *)
From Coq Require Import NArith.
From Verif Require Import UdpModel UdpSpec.
From Coq Require Import String List Arith Bool ZArith Lia.
From Verif Require Import FinLib Radix ParseModel AccessModel AccessSpec PrintModel FmlaModel FmlaSpec FmlaProofs FmlaProofs2 FmlaProofs3 FmlaProofs4 FmlaProps
  IntModel IntSpec ExprModel ExprSpec
  ActModel ActSpec ActProofs ActProofs2 ActProofs4 ActProps NetModel NetSpec NetProofs NetProofs2 NetProofs3 NetProofs4 NetProofs5 NetProps
  CandModel CandSpec CandProofs GivenSpec GivenProofs SyncProofs UgenModel UgenProofs UgenSpec UgenProofs2 UgenProofs3 UgenProofs4 UgenProofs6 UgenProofs7
  CmdModel PrintProofs4 UgenSpec UgenProofs7 PmlModel PmlSpec PmlProofs PmlProofs2 PmlProofs3.
Import ListNotations.
Local Open Scope list_scope.
Local Open Scope nat_scope.

(** ** The numbers of processes *)
Lemma memb_jth_gen : forall k l s j i p, nth_error (filter (fun ip => p_kind (snd ip) =? k) (combine (seq s (length l)) l)) j = Some (i, p) ->
  s <= i /\ nth_error l (i - s) = Some p /\ p_kind p = k /\ length (filter (fun q => p_kind q =? k) (firstn (i - s) l)) = j.
Proof.
  intros k l. induction l as [|q l IH]; intros s j i p H; cbn [length seq combine filter snd] in H; [destruct j; discriminate|].
  destruct (Nat.eqb_spec (p_kind q) k) as [E|E].
  - destruct j as [|j]; cbn [nth_error] in H.
    + injection H as <- <-. rewrite Nat.sub_diag. auto.
    + apply IH in H. destruct H as (L & N & K & C). replace (i - s) with (S (i - S s)) by lia. cbn [nth_error firstn filter]. apply Nat.eqb_eq in E. rewrite E. cbn [length]. repeat split; auto; lia.
  - apply IH in H. destruct H as (L & N & K & C). replace (i - s) with (S (i - S s)) by lia. cbn [nth_error firstn filter]. apply Nat.eqb_neq in E. rewrite E. repeat split; auto; lia.
Qed.
Lemma memb_jth : forall O k j i p, nth_error (membs O k) j = Some (i, p) -> jth_of_kind O k j i p.
Proof. intros O k j i p H. apply memb_jth_gen in H. rewrite Nat.sub_0_r in H. destruct H as (_ & A & B & C). split; auto. Qed.

Lemma memb_in : forall O k i p, In (i, p) (membs O k) <-> nth_error (pcs O) i = Some p /\ p_kind p = k.
Proof.
  intros O k i p. unfold membs. rewrite filter_In. cbn [snd]. rewrite Nat.eqb_eq. split; intros (A & B); split; auto.
  - apply In_nth_error in A. destruct A as (m & A).
    assert (G : forall (l : list process) s m, nth_error (combine (seq s (length l)) l) m = Some (i, p) -> i = s + m /\ nth_error l m = Some p).
    { induction l as [|q l IH]; intros s m' H; [destruct m'; discriminate|]. destruct m' as [|m']; cbn in H; [injection H as <- <-; split; [lia|auto]|]. apply IH in H. cbn. split; [lia|apply H]. }
    apply G in A. destruct A as (-> & A). exact A.
  - assert (G : forall (l : list process) s m, nth_error l m = Some p -> In (s + m, p) (combine (seq s (length l)) l)).
    { induction l as [|q l IH]; intros s m H; [destruct m; discriminate|]. destruct m as [|m]; cbn in *; [left; injection H as ->; f_equal; lia|right; replace (s + S m) with (S s + m) by lia; apply IH; auto]. }
    apply (G _ 0 i A).
Qed.

Section Started.
Variables (O : network) (arrays : list (string * list nat)) (ks : list kind_text) (acts : list act).
Definition the_proctype (k off : nat) : proctype :=
  let kt := nth k ks kind_text0 in
  mkProctype (length (membs O k)) off (k_idx kt) (k_idxmap kt) (k_lets kt)
    (map (fun a => OPutPromelaAction arrays kt (nth k (kinds O) pc0) (vals a)) (filter (fun a => act_pc a =? k) acts)).
Lemma pc_printed : forall k off, membs O k <> [] -> existsb (fun a => act_pc a =? k) acts = true ->
  OPutPromelaPc O arrays ks acts off k = [the_proctype k off].
Proof. intros k off N E. unfold OPutPromelaPc. destruct (membs O k) eqn:M; [congruence|]. rewrite E. cbn [length Nat.eqb negb]. unfold the_proctype. rewrite M. reflexivity. Qed.
Lemma pc_not_printed : forall k off, membs O k = [] -> OPutPromelaPc O arrays ks acts off k = [].
Proof. intros k off E. unfold OPutPromelaPc. rewrite E. reflexivity. Qed.
Lemma started_in : forall l off, (forall k, In k l -> membs O k <> [] -> existsb (fun a => act_pc a =? k) acts = true) -> forall pt pid,
  In (pt, pid) (started off (output_pcs O arrays ks acts off l)) -> exists k j off', In k l /\ j < length (membs O k) /\ pt = the_proctype k off' /\ pid = off' + j.
Proof.
  induction l as [|k l IH]; intros off A pt pid I; cbn [output_pcs] in I; [destruct I|].
  assert (A' : forall k0, In k0 l -> membs O k0 <> [] -> existsb (fun a => act_pc a =? k0) acts = true) by (intros k0 K; apply A; right; auto).
  assert (D : membs O k = [] \/ membs O k <> []) by (destruct (membs O k); [left; auto|right; discriminate]). destruct D as [E|E].
  - rewrite (pc_not_printed k off E) in I. rewrite E in I. cbn [length app] in I. rewrite Nat.add_0_r in I. apply IH in I; auto. destruct I as (k' & j & o & K & X). exists k', j, o. split; [right; auto|auto].
  - rewrite (pc_printed k off E (A k (or_introl eq_refl) E)) in I. cbn [app started] in I. change (t_copies (the_proctype k off)) with (length (membs O k)) in I. apply in_app_iff in I. destruct I as [I|I].
    + apply in_map_iff in I. destruct I as (j & EQ & J). apply in_seq in J. injection EQ as <- <-. exists k, j, off. split; [left; auto|]. split; [lia|auto].
    + apply IH in I; auto. destruct I as (k' & j & o & K & X). exists k', j, o. split; [right; auto|auto].
Qed.
Lemma in_started : forall l off, (forall k, In k l -> membs O k <> [] -> existsb (fun a => act_pc a =? k) acts = true) -> forall k j,
  In k l -> j < length (membs O k) -> exists off', In (the_proctype k off', off' + j) (started off (output_pcs O arrays ks acts off l)).
Proof.
  induction l as [|k0 l IH]; intros off A k j K J; [destruct K|]. cbn [output_pcs].
  assert (A' : forall k0, In k0 l -> membs O k0 <> [] -> existsb (fun a => act_pc a =? k0) acts = true) by (intros k1 K1; apply A; right; auto).
  assert (D : membs O k0 = [] \/ membs O k0 <> []) by (destruct (membs O k0); [left; auto|right; discriminate]). destruct D as [E|E].
  - rewrite (pc_not_printed k0 off E), E. cbn [length app]. rewrite Nat.add_0_r. destruct K as [<-|K]; [rewrite E in J; cbn in J; lia|]. apply IH; auto.
  - rewrite (pc_printed k0 off E (A k0 (or_introl eq_refl) E)). cbn [app started]. change (t_copies (the_proctype k0 off)) with (length (membs O k0)). destruct K as [<-|K].
    + exists off. apply in_or_app. left. apply in_map_iff. exists j. split; auto. apply in_seq. lia.
    + destruct (IH (off + length (membs O k0)) A' k j K J) as (o & I). exists o. apply in_or_app. right. exact I.
Qed.
End Started.

Section Model.
Variables (T O : network) (arrays : list (string * list nat)) (cs : list (string * sexp)) (ks : list kind_text) (actions : list nat).
Notation ok := (FmlaSpec.ok (vdoms O)).
Hypothesis HT : net_ok T.
Hypothesis HO : net_ok O.
Hypothesis SP : same_protocol T O.
Hypothesis PL : plain_kinds (kinds T).
Hypothesis ACTS : proper_actions T actions.
Hypothesis ND : forall p, In p (pcs O) -> NoDup (p_vbls p).
Hypothesis DN : describes_net O arrays cs ks.
Let KE : kinds T = kinds O := sp_kinds _ _ SP.
Let PLO : plain_kinds (kinds O).
Proof. rewrite <- KE. exact PL. Qed.
Let ACTO : proper_actions O actions.
Proof. intros a A. rewrite <- KE. apply ACTS, A. Qed.

Lemma solution_cells : forall i p, nth_error (pcs O) i = Some p -> forall s t, ok s -> ok t ->
  (solution_step O actions i s t <-> kind_can_do (kinds O) actions (p_kind p) (cells O p s) (cells O p t) /\ frame O p s t).
Proof.
  intros i p Hi s t S Tt. pose proof (ND p (nth_error_In _ _ Hi)) as NDp. rewrite (one_action O). unfold solution_step. split.
  - intros (a & A & H). apply (step_cells O HO PLO actions ACTO i p Hi NDp a s t A S Tt) in H. destruct H as (H & F). split; auto. exists a. auto.
  - intros ((a & A & H) & F). exists a. split; auto. apply (step_cells O HO PLO actions ACTO i p Hi NDp a s t A S Tt). auto.
Qed.

(** The process of [T] that stands for a kind *)
Lemma stands : forall p, In p (pcs O) -> exists j q, pattern T (p_kind p) j q /\ NoDup (p_vbls q) /\ p_kind q = p_kind p /\ kind_of T q = its_kind O p.
Proof. intros p Hp. destruct (used_pattern T O HT SP p Hp) as (j & q & P & N & K). exists j, q. split; auto. split; auto. split; auto. apply P. Qed.

Lemma fits_nth : forall i p, nth_error (pcs O) i = Some p -> forall y, fits (its_kind O p) y -> length y = length (accs (its_kind O p)) /\
  forall k, k < length (accs (its_kind O p)) -> nth k y 0 < a_dom (nth k (accs (its_kind O p)) acc0).
Proof.
  intros i p Hi y F. unfold fits in F. apply Forall2_nth_iff in F. unfold sizes in F. rewrite (all_shown O HO PLO i p Hi) in F. rewrite map_length, seq_length in F. destruct F as (L & F).
  split; auto. intros k K. specialize (F k K).
  replace (nth k (map (fun i0 => a_dom (nth i0 (accs (its_kind O p)) acc0)) (seq 0 (length (accs (its_kind O p))))) 0) with (a_dom (nth k (accs (its_kind O p)) acc0)) in F; auto.
  rewrite (nth_indep _ 0 (a_dom (nth 0 (accs (its_kind O p)) acc0))) by (rewrite map_length, seq_length; exact K).
  rewrite (map_nth (fun i0 => a_dom (nth i0 (accs (its_kind O p)) acc0))), seq_nth by exact K. reflexivity.
Qed.
Lemma same_state : forall i p, nth_error (pcs O) i = Some p -> forall s t t', ok t -> ok t' -> frame O p s t -> frame O p s t' -> cells O p t = cells O p t' -> t = t'.
Proof.
  intros i p Hi s t t' Tt T' F F' C. apply nth_ext with (d := 0) (d' := 0); [rewrite (ok_length _ _ Tt), (ok_length _ _ T'); reflexivity|]. intros v V. rewrite (ok_length _ _ Tt) in V.
  destruct (in_dec Nat.eq_dec v (p_vbls p)) as [I|I]; [|rewrite F, F'; auto]. apply In_nth with (d := 0) in I. destruct I as (k & K & <-).
  rewrite (no_vbls _ HO p (nth_error_In _ _ Hi)) in K. change (nth (nth k (p_vbls p) 0) t 0) with (value t p k). change (nth (nth k (p_vbls p) 0) t' 0) with (value t' p k).
  rewrite <- !(cells_nth O HO PLO i p Hi) by exact K. rewrite C. reflexivity.
Qed.

Variable M : pmodel.
Hypothesis MC : m_consts M = texts cs.
Hypothesis MA : m_arrays M = map (fun xl => (fst xl, (array_dom O (snd xl), length (snd xl)))) arrays.

(** What an alternative of a process does *)
Lemma alt_run : forall i j p x y, nth_error (pcs O) i = Some p -> jth_of_kind O (p_kind p) j i p -> kind_can_do (kinds O) actions (p_kind p) x y ->
  forall pt, t_idx pt = k_idx (nth (p_kind p) ks kind_text0) -> t_idxmap pt = k_idxmap (nth (p_kind p) ks kind_text0) -> t_lets pt = k_lets (nth (p_kind p) ks kind_text0) ->
  forall s, ok s ->
  let r := run_option M arrays pt (t_offset pt + j) (OPutPromelaAction arrays (nth (p_kind p) ks kind_text0) (its_kind O p) (x ++ wvals (its_kind O p) y)) s in
  (cells O p s <> x /\ r = Blocked) \/ (cells O p s = x /\ exists t, r = Next t /\ ok t /\ cells O p t = y /\ frame O p s t).
Proof.
  intros i j p x y Hi Hj CD pt TI TM TL s S r. pose proof (nth_error_In _ _ Hi) as Hp. pose proof (ND p Hp) as NDp. set (kd := its_kind O p) in *.
  destruct CD as (a & A & KA & FX & FY & CC & _). fold kd in FX, FY. destruct (fits_nth i p Hi x FX) as (LX & _). destruct (fits_nth i p Hi y FY) as (LY & DY). fold kd in LX, LY, DY.
  assert (LW : length (wvals kd y) = length (wmap kd)) by (unfold wvals; apply map_length).
  assert (AS : forall w, w < nw kd -> assign kd (x ++ wvals kd y) w = nth (nth w (wmap kd) 0) y 0).
  { intros w W. unfold assign. rewrite app_nth2 by (unfold nr; lia). replace (nr kd + w - length x) with w by (unfold nr; lia). unfold wvals.
    rewrite (nth_indep _ 0 (nth 0 y 0)) by (rewrite map_length; exact W). rewrite (map_nth (fun i0 => nth i0 y 0)). reflexivity. }
  assert (WL : forall w, w < nw kd -> nth w (wmap kd) 0 < length (accs kd) /\ write_ck (acc kd (nth w (wmap kd) 0)) = true).
  { intros w L. assert (I : In (nth w (wmap kd) 0) (wmap kd)) by (apply nth_In; exact L). apply filter_In in I. destruct I as (I & W). apply in_seq in I. unfold nr in I. split; [lia|auto]. }
  destruct (option_run O HO PLO arrays cs ks DN M MC MA i j p Hi Hj NDp pt TI TM TL (x ++ wvals kd y) s) as [(E & N)|(N & t & E & LT & VT & FT)]; auto.
  { fold kd. rewrite app_length, LW. lia. }
  { fold kd. intros w W. rewrite AS by exact W. apply DY. apply (WL w W). }
  - left. split; auto. fold kd in N. replace (nr kd) with (length x) in N by (unfold nr; lia). rewrite firstn_app, Nat.sub_diag, firstn_all in N. cbn in N. rewrite app_nil_r in N. exact N.
  - right. fold kd in N, VT, FT. replace (nr kd) with (length x) in N by (unfold nr; lia). rewrite firstn_app, Nat.sub_diag, firstn_all in N. cbn in N. rewrite app_nil_r in N. split; auto.
    exists t. split; auto.
    destruct CC as (rr & _ & _ & _ & (_ & _ & NW & _)). change (nth (p_kind p) (kinds O) pc0) with kd in NW.
    assert (OUT : forall v, (forall w, w < nw kd -> v <> vbl_at p (nth w (wmap kd) 0)) -> nth v t 0 = nth v s 0) by exact FT.
    assert (IN : forall k, k < length (accs kd) -> value t p k = nth k y 0).
    { intros k K. destruct (write_ck (acc kd k)) eqn:W.
      - assert (I : In k (wmap kd)) by (apply filter_In; split; auto; apply in_seq; unfold nr; lia). apply In_nth with (d := 0) in I. destruct I as (w & W1 & <-).
        rewrite VT by exact W1. rewrite AS by exact W1. reflexivity.
      - unfold value. rewrite OUT.
        + rewrite NW; [|exact K|].
          * rewrite <- N. rewrite (cells_nth O HO PLO i p Hi) by exact K. reflexivity.
          * intros WR. apply writable_ck in WR. change (nth k (accs kd) acc0) with (acc kd k) in WR. congruence.
        + intros w W1 EQ. destruct (WL w W1) as (W2 & W3). apply (vbl_inj O HO i p Hi NDp) in EQ; auto. congruence. }
    assert (C : cells O p t = y).
    { apply nth_ext with (d := 0) (d' := 0).
      - unfold cells. rewrite map_length, (all_shown O HO PLO i p Hi), seq_length. symmetry. exact LY.
      - intros k K. unfold cells in K. rewrite map_length, (all_shown O HO PLO i p Hi), seq_length in K. rewrite (cells_nth O HO PLO i p Hi) by exact K. apply IN. exact K. }
    assert (F : frame O p s t).
    { intros v V I. apply OUT. intros w W EQ. apply I. rewrite EQ. apply nth_In. rewrite (no_vbls _ HO p Hp). apply (WL w W). }
    split; [|auto].
    unfold FmlaSpec.ok. apply Forall2_nth_iff. split; [rewrite LT; apply (ok_length _ _ S)|]. intros v V.
    destruct (in_dec Nat.eq_dec v (p_vbls p)) as [I|I].
    + apply In_nth with (d := 0) in I. destruct I as (k & K & <-). rewrite (no_vbls _ HO p Hp) in K. change (nth (nth k (p_vbls p) 0) t 0) with (value t p k). rewrite IN by exact K.
      destruct (no_id _ HO p k Hp K) as (_ & D & _). unfold vbl_at in D. rewrite D. apply DY. exact K.
    + rewrite F by auto. unfold FmlaSpec.ok in S. apply Forall2_nth_iff in S. apply S. exact V.
Qed.

Variables (acts : list act).
Hypothesis HL : forall j q, pattern T (p_kind q) j q -> NoDup (p_vbls q) -> forall v, In {| act_pc := p_kind q; vals := v |} acts <-> alternative T q actions v.
Hypothesis MP : m_proctypes M = output_pcs O arrays ks (sort_acts acts) 1 (seq 0 (length (kinds T))).
(** Every process can do something. *)
Hypothesis MV : forall i p, nth_error (pcs O) i = Some p -> exists s t, ok s /\ ok t /\ solution_step O actions i s t /\ assumed_like T O p s.

Lemma alts : forall i p, nth_error (pcs O) i = Some p -> forall v, (exists b, In b (sort_acts acts) /\ act_pc b = p_kind p /\ vals b = v) <->
  exists x y, kind_can_do (kinds O) actions (p_kind p) x y /\ (exists j q, pattern T (p_kind p) j q /\ assumed T q x) /\ v = x ++ wvals (its_kind O p) y.
Proof.
  intros i p Hi v. destruct (stands p (nth_error_In _ _ Hi)) as (j & q & P & N & KQ & KD). rewrite <- KQ in P. specialize (HL j q P N v). unfold alternative in HL. rewrite KD, KE, KQ in HL. split.
  - intros (b & B & K & V). rewrite sort_in in B. destruct b as [k w]. cbn in K, V. subst k w. apply HL in B. destruct B as (x & y & H & A & V). exists x, y. split; auto. split; auto.
    exists j, q. rewrite <- KQ. auto.
  - intros (x & y & H & (j' & q' & P' & A) & V). rewrite <- KQ in P'. pose proof (pattern_memb T HT _ _ _ P) as E1. pose proof (pattern_memb T HT _ _ _ P') as E2.
    assert (Q : q' = q) by congruence. subst q'. exists {| act_pc := p_kind p; vals := v |}. split; auto. rewrite sort_in. apply HL. exists x, y. auto.
Qed.
Lemma printed : forall k, In k (seq 0 (length (kinds T))) -> membs O k <> [] -> existsb (fun a => act_pc a =? k) (sort_acts acts) = true.
Proof.
  intros k _ N. destruct (membs O k) as [|(i, p) l] eqn:E; [congruence|]. assert (I : In (i, p) (membs O k)) by (rewrite E; left; auto).
  apply memb_in in I. destruct I as (Hi & K). destruct (MV i p Hi) as (s & t & S & Tt & ST & AS). apply (solution_cells i p Hi s t S Tt) in ST. destruct ST as (ST & _).
  apply existsb_exists. destruct (proj2 (alts i p Hi (cells O p s ++ wvals (its_kind O p) (cells O p t)))) as (b & B & KB & _).
  - exists (cells O p s), (cells O p t). auto.
  - exists b. split; auto. apply Nat.eqb_eq. congruence.
Qed.

Lemma option_of : forall pt pid o, In (pt, pid) (started 1 (m_proctypes M)) -> In o (t_options pt) ->
  exists i j p x y, nth_error (pcs O) i = Some p /\ jth_of_kind O (p_kind p) j i p /\ kind_can_do (kinds O) actions (p_kind p) x y /\
    (exists j q, pattern T (p_kind p) j q /\ assumed T q x) /\ pid = t_offset pt + j /\
    t_idx pt = k_idx (nth (p_kind p) ks kind_text0) /\ t_idxmap pt = k_idxmap (nth (p_kind p) ks kind_text0) /\ t_lets pt = k_lets (nth (p_kind p) ks kind_text0) /\
    o = OPutPromelaAction arrays (nth (p_kind p) ks kind_text0) (its_kind O p) (x ++ wvals (its_kind O p) y).
Proof.
  intros pt pid o I IO. rewrite MP in I. apply started_in in I; [|exact printed]. destruct I as (k & j & off & K & J & -> & ->).
  destruct (nth_error (membs O k) j) as [(i, p)|] eqn:E; [|apply nth_error_None in E; lia]. apply memb_jth in E. pose proof E as (Hi & KP & _). subst k.
  cbn [the_proctype t_options] in IO. apply in_map_iff in IO. destruct IO as (b & <- & B). apply filter_In in B. destruct B as (B & KB). apply Nat.eqb_eq in KB.
  destruct (proj1 (alts i p Hi (vals b))) as (x & y & H & A & V); [exists b; auto|]. exists i, j, p, x, y. rewrite V. repeat (split; [auto; try apply E|]). auto.
Qed.

Theorem no_fault : forall s, ok s -> ~ promela_fault M arrays s.
Proof.
  intros s S (pt & pid & o & I & IO & R). destruct (option_of pt pid o I IO) as (i & j & p & x & y & Hi & Hj & CD & _ & -> & TI & TM & TL & ->).
  destruct (alt_run i j p x y Hi Hj CD pt TI TM TL s S) as [(_ & E)|(_ & t & E & _)]; rewrite E in R; discriminate.
Qed.
Theorem steps_ok : forall s t, ok s -> promela_step M arrays s t -> ok t.
Proof.
  intros s t S (pt & pid & o & I & IO & R). destruct (option_of pt pid o I IO) as (i & j & p & x & y & Hi & Hj & CD & _ & -> & TI & TM & TL & ->).
  destruct (alt_run i j p x y Hi Hj CD pt TI TM TL s S) as [(_ & E)|(_ & t' & E & T' & _)]; rewrite E in R; [discriminate|]. injection R as <-. exact T'.
Qed.
Theorem steps_iff : forall s t, ok s -> ok t ->
  (promela_step M arrays s t <-> exists i p, nth_error (pcs O) i = Some p /\ solution_step O actions i s t /\ assumed_like T O p s).
Proof.
  intros s t S Tt. split.
  - intros (pt & pid & o & I & IO & R). destruct (option_of pt pid o I IO) as (i & j & p & x & y & Hi & Hj & CD & A & -> & TI & TM & TL & ->).
    destruct (alt_run i j p x y Hi Hj CD pt TI TM TL s S) as [(_ & E)|(C & t' & E & T' & C' & F)]; rewrite E in R; [discriminate|]. injection R as ->.
    exists i, p. split; auto. split; [|rewrite <- C in A; exact A]. apply (solution_cells i p Hi s t S Tt). rewrite C, C'. auto.
  - intros (i & p & Hi & ST & AS). apply (solution_cells i p Hi s t S Tt) in ST. destruct ST as (CD & F).
    assert (IM : In (i, p) (membs O (p_kind p))) by (apply memb_in; auto). apply In_nth_error in IM. destruct IM as (j & J). pose proof (memb_jth _ _ _ _ _ J) as Hj.
    destruct (in_started O arrays ks (sort_acts acts) (seq 0 (length (kinds T))) 1 printed (p_kind p) j) as (off & I).
    { apply in_seq. rewrite KE. pose proof (no_kind _ HO p (nth_error_In _ _ Hi)). lia. }
    { apply nth_error_Some. congruence. }
    rewrite <- MP in I. destruct (proj2 (alts i p Hi (cells O p s ++ wvals (its_kind O p) (cells O p t)))) as (b & B & KB & VB).
    { exists (cells O p s), (cells O p t). auto. }
    exists (the_proctype O arrays ks (sort_acts acts) (p_kind p) off), (off + j), (OPutPromelaAction arrays (nth (p_kind p) ks kind_text0) (its_kind O p) (vals b)). split; auto. split.
    + cbn [the_proctype t_options]. apply in_map_iff. exists b. split; auto. apply filter_In. split; auto. apply Nat.eqb_eq. exact KB.
    + rewrite VB. change off with (t_offset (the_proctype O arrays ks (sort_acts acts) (p_kind p) off)) at 2.
      destruct (alt_run i j p (cells O p s) (cells O p t) Hi Hj CD (the_proctype O arrays ks (sort_acts acts) (p_kind p) off) eq_refl eq_refl eq_refl s S) as [(N & _)|(_ & t' & E & T' & C' & F')]; [congruence|].
      rewrite E. f_equal. symmetry. apply (same_state i p Hi s t t'); auto.
Qed.
End Model.
