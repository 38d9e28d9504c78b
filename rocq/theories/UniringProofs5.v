(** Rounds as the specification counts them; the verdict; evaluation of the checks on small systems. *)
From Coq Require Import List Arith Bool Lia.
From Verif Require Import FinLib Radix FmlaModel FmlaSpec FmlaProofs FmlaProofs2 FmlaProofs4 FmlaProps ReachModel ReachSpec ReachProofs CmdProofs2
  StabProofs4 UniringModel UniringSpec UniringProofs UniringProofs3 UniringProofs4.
Import ListNotations.

Section Rounds.
Variable ds : list nat.
Hypothesis INH : inhabited ds.
Variable ps : list proc.
Hypothesis OK : Forall (proc_ok ds) ps.
Notation ok := (FmlaSpec.ok ds).
Notation val := (CmdProofs2.val ds).
Variable assumed : option fmla.
Hypothesis CL : closed_option ds ps assumed.
Notation round := (UniringSpec.round ds ps).
Notation starting := (UniringSpec.starting ds ps assumed).
Notation F := (UniringProofs3.F ds ps assumed).

Lemma endpoints_ok : forall k t, endpoints _ round starting k t -> ok t.
Proof.
  induction k as [|k IH]; intros t (s & S & H).
  - apply steps_0 in H. subst. apply S.
  - apply steps_S_r in H. destruct H as (u & H & K). apply (swept_ok ds (rev ps) u t K). apply IH. exists s. auto.
Qed.
Lemma endpoints_S : forall k t, endpoints _ round starting (S k) t <-> exists s, endpoints _ round starting k s /\ round s t.
Proof.
  intros k t. split.
  - intros (s & S & H). apply steps_S_r in H. destruct H as (u & H & K). exists u. split; auto. exists s; auto.
  - intros (u & (s & S & H) & K). exists s. split; auto. apply steps_S_r. eauto.
Qed.
Lemma F_rounds : forall k t, pr ds (F k) t = true <-> endpoints _ round starting k (val t).
Proof.
  induction k as [|k IH]; intros t.
  - change (F 0) with (first_span ds ps assumed). rewrite (pr_holds ds), (F0_holds ds ps OK assumed CL (val t) (val_ok ds t)), (enabled_step ds ps (val t) (val_ok ds t)). split.
    + intros H. exists (val t). split; [|apply steps_0; auto]. split; [apply val_ok|]. auto.
    + intros (s & (_ & S) & H). apply steps_0 in H. subst s. auto.
  - rewrite (F_step ds ps OK assumed CL), endpoints_S. split.
    + intros (s & H & K). exists (val s). split; auto. apply IH; auto.
    + intros (s & H & K). destruct (lift ds s (endpoints_ok k s H)) as (s' & <-). exists s'. split; auto. apply IH; auto.
Qed.
Lemma settled_rounds : forall k, settled_at ds ps assumed k <-> forall t, endpoints _ round starting k t <-> endpoints _ round starting (S k) t.
Proof.
  intros k. unfold settled_at. split.
  - intros H t. split; intros K; destruct (lift ds t (endpoints_ok _ t K)) as (t' & <-); apply F_rounds; apply F_rounds in K; congruence.
  - intros H t. apply eq_true_iff_eq. rewrite !F_rounds. auto.
Qed.
Definition inv_set (inv : option fmla) : option (list nat -> Prop) := match inv with Some i => Some (holds i) | None => None end.
Lemma stops_settled : forall inv, (match inv with Some i => state_fmla ds i | None => True end) -> forall k,
  stops ds ps assumed inv k <-> settled _ round starting (inv_set inv) k.
Proof.
  intros inv SI k. unfold stops, settled. rewrite settled_rounds. destruct inv as [i|]; cbn [inv_set]; [|tauto].
  pose proof (F_proper ds ps OK assumed CL k) as (FS & _). rewrite (subset_state ds INH _ _ FS SI).
  assert (E : (forall s, ok s -> holds (F k) s -> holds i s) <-> (forall t, endpoints _ round starting k t -> holds i t)); [|tauto]. split.
  - intros H t K. assert (O := endpoints_ok k t K). apply H; auto. destruct (lift ds t O) as (t' & <-). apply F_rounds in K. apply (pr_holds ds); auto.
  - intros H s O K. apply H. destruct (lift ds s O) as (s' & <-). apply F_rounds. apply (pr_holds ds); auto.
Qed.
End Rounds.

(** Convergence in a finite system *)
Section Verdict.
Variable ds : list nat.
Variable ps : list proc.
Notation ok := (FmlaSpec.ok ds).
Notation val := (CmdProofs2.val ds).
Notation St := (CmdProofs2.St ds).
Notation system_step := (UniringSpec.system_step ds ps).
Hypothesis OK : Forall (proc_ok ds) ps.
Variables A I : fmla.
Hypothesis CA : closed_set ds ps A.
Hypothesis CI : closed_set ds ps I.
Definition lifted (x y : St) : Prop := system_step (val x) (val y).
Lemma lifted_steps : forall n x y, steps St lifted n x y -> steps _ system_step n (val x) (val y).
Proof.
  intros n x y (f & F0 & FN & FR). exists (fun i => val (f i)). split; [congruence|]. split; [congruence|]. exact FR.
Qed.
Lemma steps_lifted : forall n x y, steps _ system_step n (val x) (val y) -> steps St lifted n x y.
Proof.
  induction n as [|n IH]; intros x y H.
  - apply steps_0 in H. apply val_inj in H. apply steps_0. auto.
  - apply steps_S in H. destruct H as (u & H & K). assert (U : ok u) by apply H. destruct (lift ds u U) as (u' & <-).
    apply steps_S. exists u'. split; auto.
Qed.
Lemma converges_iff : converges _ system_step (fun s => ok s /\ holds A s) (holds I) <->
  (forall s, ok s -> holds A s -> cyclic ds ps s -> holds I s) /\ (forall s, ok s -> holds A s -> ~ holds I s -> exists t, system_step s t).
Proof.
  destruct CA as (SA & KA), CI as (SI & KI). split.
  - intros C. split.
    + intros s O HA CY. apply (converges_cycle _ system_step (fun s => ok s /\ holds A s) (holds I) C); auto.
    + intros s O HA NI. destruct (enabled_dec ds ps OK s O) as [E|E]; [apply (enabled_step ds ps s O); auto|].
      destruct NI. destruct C as (_ & C). apply (C (fun _ => s) 0); [auto|intros i L; lia|].
      intros t T. apply E. apply (enabled_step ds ps s O). eauto.
  - intros (CY & DL). assert (D : forall x : St, holds I (val x) \/ ~ holds I (val x)).
    { intros x. unfold holds, meaning. destruct (eval _ _); [left|right]; auto; discriminate. }
    destruct (converges_to St (CmdProofs2.eq_dec ds) (CmdProofs2.univ ds) (CmdProofs2.all_states ds) lifted (fun x => holds A (val x)) (fun x => holds I (val x)) D) as (C1 & C2).
    + intros x y HA H. apply (KA (val x)); auto.
    + intros x y HI H. apply (KI (val x)); auto.
    + intros c HA (n & H). apply CY; [apply val_ok|auto|]. exists n. apply lifted_steps. auto.
    + intros x HA NI. destruct (DL (val x) (val_ok ds x) HA NI) as (t & T). assert (O : ok t) by apply T. destruct (lift ds t O) as (t' & <-). exists t'. auto.
    + split.
      * intros f (O & HA) RUN. destruct (lift ds (f 0) O) as (d & E).
        assert (FO : forall i, ok (f i)) by (intros i; apply (RUN i)).
        destruct (C1 (fun i => up ds d (f i))) as (m & M).
        -- rewrite up_val; auto.
        -- intros i. unfold lifted. rewrite !up_val by auto. apply RUN.
        -- exists m. intros j J. specialize (M j J). rewrite up_val in M; auto.
      * intros f n (O & HA) RUN DEAD. destruct (lift ds (f 0) O) as (d & E).
        assert (FO : forall i, i <= n -> ok (f i)).
        { intros i L. destruct i as [|i]; auto. apply (RUN i). lia. }
        assert (K : holds I (val (up ds d (f n)))); [|rewrite up_val in K; auto].
        apply (C2 (fun i => up ds d (f i)) n).
        -- rewrite up_val; auto.
        -- intros i L. unfold lifted. rewrite !up_val by (apply FO; lia). apply RUN; auto.
        -- intros y Y. unfold lifted in Y. rewrite up_val in Y by auto. apply (DEAD _ Y).
Qed.
End Verdict.

(** ** Small systems, evaluated on lists of states *)
Section Tables.
Variable ds : list nat.
Hypothesis INH : inhabited ds.
Notation ok := (FmlaSpec.ok ds).
Definition all : list (list nat) := assignments ds.
Lemma all_ok : forall s, In s all <-> ok s.
Proof. intros s. apply in_assignments. Qed.
Definition mem (s : list nat) (l : list (list nat)) : bool := if in_dec (list_eq_dec Nat.eq_dec) s l then true else false.
Lemma mem_in : forall s l, mem s l = true <-> In s l.
Proof. intros s l. unfold mem. destruct (in_dec _ _ _); split; auto; discriminate. Qed.
Definition is (X : fmla) (T : list (list nat)) : Prop := state_fmla ds X /\ forall s, ok s -> (holds X s <-> In s T).
Definition listed (T : list (list nat)) : fmla := Mdd (fun e => mem (map (fun k => nth (pre_id k) e 0) (seq 0 (length ds))) T).
Lemma nth_join : forall a i p k, length a = length p -> length i = length p -> k < length p ->
  nth (pre_id k) (join a i p) 0 = nth k p 0 /\ nth (img_id k) (join a i p) 0 = nth k i 0.
Proof.
  unfold pre_id, img_id. induction a as [|x a IH]; intros [|y i] [|z p] [|k] L1 L2 K; cbn in *; try lia.
  replace (k + S (k + S (k + 0)) + 2) with (S (S (3 * k + 2))) by lia. replace (k + S (k + S (k + 0)) + 1) with (S (S (3 * k + 1))) by lia.
  apply IH; lia.
Qed.
Lemma okl : forall s, ok s -> length s = length ds.
Proof. intros s H. apply (ok_length ds); auto. Qed.
Lemma listed_eval : forall T a i p, ok a -> ok i -> ok p -> eval (listed T) (join a i p) = mem p T.
Proof.
  intros T a i p A I P. cbn. f_equal. rewrite <- (okl p P).
  assert (E : forall l, incl l (seq 0 (length p)) -> map (fun k => nth (pre_id k) (join a i p) 0) l = map (fun k => nth k p 0) l).
  { intros l L. apply map_ext_in. intros k K. apply L, in_seq in K. apply nth_join; rewrite ?(okl a A), ?(okl i I), ?(okl p P); auto. rewrite <- (okl p P). lia. }
  rewrite E by apply incl_refl. clear. induction p as [|z p IH]; auto. cbn. f_equal. rewrite <- seq_shift, map_map. apply IH.
Qed.
Lemma listed_is : forall T, is (listed T) T.
Proof.
  intros T. split.
  - intros a i a' i' p A I A' I' P. unfold meaning. rewrite !listed_eval by auto. tauto.
  - intros s O. unfold holds, meaning. rewrite listed_eval by auto. apply mem_in.
Qed.
Lemma is_sat : forall X T, is X T -> incl T all -> (sat_ck ds X = true <-> T <> []).
Proof.
  intros X T (SX & H) IN. rewrite (sat_state ds INH X SX). split.
  - intros (s & O & K) ->. apply H in K; auto.
  - intros NE. destruct T as [|s T]; [congruence|]. assert (O : ok s) by (apply all_ok, IN; left; auto). exists s. split; auto. apply H; auto. left; auto.
Qed.
Lemma is_equiv : forall X T Y T', is X T -> is Y T' -> (equiv_ck ds X Y = true <-> forall s, ok s -> (In s T <-> In s T')).
Proof.
  intros X T Y T' (SX & HX) (SY & HY). rewrite (equiv_iff ds INH). split.
  - intros H s O. rewrite <- (HX s O), <- (HY s O). unfold holds, meaning. rewrite (H s s s O O O). tauto.
  - intros H a i s A I O. rewrite (state_eval ds X SX a i s), (state_eval ds Y SY a i s) by auto. apply eq_true_iff_eq.
    pose proof (HX s O) as EX. pose proof (HY s O) as EY. unfold holds, meaning in EX, EY. rewrite EX, EY. auto.
Qed.
Notation stepb := (UniringProofs3.stepb ds).
Definition acts (p : proc) (s : list nat) : bool := existsb (stepb p s) all.
Lemma acts_can : forall p s, acts p s = true <-> can_act ds p s.
Proof.
  intros p s. unfold acts, can_act. rewrite existsb_exists. split.
  - intros (t & T & H). exists t. split; [apply all_ok; auto|apply stepb_step; auto].
  - intros (t & T & H). exists t. split; [apply all_ok; auto|apply stepb_step; auto].
Qed.
Definition tturn (T : list (list nat)) (p : proc) : list (list nat) :=
  filter (fun t => (mem t T && negb (acts p t)) || existsb (fun s => stepb p s t) T) all.
Lemma turn_is : forall X T p, proc_ok ds p -> is X T -> X <> Cst true -> incl T all -> is (turn ds X p) (tturn T p).
Proof.
  intros X T p P (SX & H) NT IN. split; [apply (turn_proper ds); auto; split; auto|]. intros t O.
  rewrite (turn_holds ds p X t P (conj SX NT) O). unfold tturn. rewrite filter_In, orb_true_iff, andb_true_iff, mem_in, negb_true_iff, existsb_exists. split.
  - intros (s & OS & K & [ST|(-> & NA)]); (split; [apply all_ok; auto|]).
    + right. exists s. split; [apply H; auto|apply stepb_step; auto].
    + left. split; [apply H; auto|]. apply not_true_iff_false. rewrite acts_can. auto.
  - intros (_ & [(K & NA)|(s & K & ST)]).
    + exists t. split; [auto|]. split; [apply H; auto|]. right. split; auto. rewrite <- acts_can. apply not_true_iff_false. auto.
    + assert (OS : ok s) by (apply all_ok, IN; auto). exists s. split; [auto|]. split; [apply H; auto|]. left. apply stepb_step; auto.
Qed.
Lemma filter_incl : forall (f : list nat -> bool), incl (filter f all) all.
Proof. intros f s H. apply filter_In in H. tauto. Qed.
Lemma tturn_incl : forall T p, incl (tturn T p) all.
Proof. intros. apply filter_incl. Qed.
Definition tsweep (qs : list proc) (T : list (list nat)) : list (list nat) := fold_left tturn qs T.
Lemma sweep_is : forall qs X T, Forall (proc_ok ds) qs -> is X T -> X <> Cst true -> incl T all ->
  is (fold_left (turn ds) qs X) (tsweep qs T) /\ incl (tsweep qs T) all.
Proof.
  induction qs as [|p qs IH]; intros X T F H NT IN; [auto|]. inversion F; subst. cbn [fold_left tsweep]. apply IH; auto using turn_is, tturn_incl.
  apply (turn_proper ds p X); auto. split; [apply H|auto].
Qed.

Section System.
Variable ps : list proc.
Hypothesis OK : Forall (proc_ok ds) ps.
(** Where the rounds start *)
Definition tstart : list (list nat) :=
  filter (fun s => existsb (fun p => acts p s) ps && existsb (fun p => existsb (fun u => eval (xn p) (join u s u)) all) ps) all.
Lemma F0_is : is (first_span ds ps None) tstart.
Proof.
  split; [apply (F0_proper ds ps OK None I)|]. intros s O. rewrite (F0_holds ds ps OK None Logic.I s O). unfold tstart.
  rewrite filter_In, andb_true_iff, !existsb_exists. split.
  - intros ((p & P & E) & (q & u & Q & U & ST) & _). split; [apply all_ok; auto|]. split; [exists p; split; auto; apply acts_can; auto|].
    exists q. split; auto. apply existsb_exists. exists u. split; [apply all_ok; auto|exact ST].
  - intros (_ & (p & P & E) & (q & Q & ST)). apply existsb_exists in ST. destruct ST as (u & U & ST). split; [exists p; split; auto; apply acts_can; auto|].
    split; [|exact Logic.I]. exists q, u. split; auto. split; [apply all_ok; auto|exact ST].
Qed.
Definition tF (k : nat) : list (list nat) := Nat.iter k (tsweep (rev ps)) tstart.
Lemma F_is : forall k, is (UniringProofs3.F ds ps None k) (tF k) /\ incl (tF k) all.
Proof.
  induction k as [|k (IH & IN)]; [split; [apply F0_is|apply filter_incl]|].
  apply (sweep_is (rev ps)); auto; [apply Forall_rev; auto|]. apply (F_proper ds ps OK None Logic.I k).
Qed.
Definition same (T T' : list (list nat)) : bool := forallb (fun s => eqb (mem s T) (mem s T')) all.
Lemma same_iff : forall T T', same T T' = true <-> forall s, ok s -> (In s T <-> In s T').
Proof.
  intros T T'. unfold same. rewrite forallb_forall. split.
  - intros H s O. rewrite <- !mem_in. apply all_ok in O. specialize (H s O). apply eqb_prop in H. rewrite H. tauto.
  - intros H s O. apply all_ok in O. apply eqb_true_iff. apply eq_true_iff_eq. rewrite !mem_in. auto.
Qed.
Lemma settled_same : forall k, same (tF k) (tF (S k)) = true -> settled_at ds ps None k.
Proof.
  intros k H s. destruct (F_is k) as ((_ & H1) & _), (F_is (S k)) as ((_ & H2) & _). apply eq_true_iff_eq. rewrite !(pr_holds ds).
  rewrite (H1 _ (val_ok ds s)), (H2 _ (val_ok ds s)). apply (proj1 (same_iff _ _) H). apply val_ok.
Qed.
(** All settled sets are the same. *)
Lemma settled_unique : forall j k, settled_at ds ps None j -> settled_at ds ps None k -> forall s,
  pr ds (UniringProofs3.F ds ps None j) s = pr ds (UniringProofs3.F ds ps None k) s.
Proof.
  intros j k J K s. rewrite <- (settled_later ds ps OK None Logic.I j J k s), <- (settled_later ds ps OK None Logic.I k K j s).
  rewrite Nat.add_comm. auto.
Qed.
Definition able (s : list nat) : bool := existsb (fun p => acts p s) ps.
Lemma able_enabled : forall s, able s = true <-> enabled ds ps s.
Proof. intros s. unfold able, enabled. rewrite existsb_exists. split; intros (p & P & H); exists p; (split; [auto|]); apply acts_can; auto. Qed.
Fixpoint tcollect (qs : list proc) (T Y : list (list nat)) : list (list nat) :=
  match qs with
  | [] => Y
  | p :: qs' => tcollect qs' (tturn T p) (Y ++ filter (fun t => existsb (fun s => stepb p s t) T) all)
  end.
Lemma collect_is : forall qs X T Y U, Forall (proc_ok ds) qs -> is X T -> X <> Cst true -> incl T all -> is Y U -> Y <> Cst true -> incl U all ->
  is (snd (fold_left (collect ds) qs (X, Y))) (tcollect qs T U) /\ incl (tcollect qs T U) all.
Proof.
  induction qs as [|p qs IH]; intros X T Y U F HX NX IX HY NY IY; [auto|]. inversion F as [|? ? P F']; subst. cbn [fold_left tcollect].
  unfold collect at 2. cbn [fst snd]. destruct HX as (SX & HX), HY as (SY & HY). apply IH; auto.
  - apply turn_is; auto. split; auto.
  - apply (turn_proper ds p X P (conj SX NX)).
  - apply tturn_incl.
  - split; [apply or_static; auto; apply img2_static; auto|]. intros s O. rewrite holds_or, (img2_one ds p X s P O SX NX), in_app_iff, filter_In, existsb_exists, (HY s O). split.
    + intros [K|(u & OU & ST & K)]; [auto|right]. split; [apply all_ok; auto|]. exists u. split; [apply HX; auto|apply stepb_step; auto].
    + intros [K|(_ & u & K & ST)]; [auto|right]. assert (OU : ok u) by (apply all_ok, IX; auto). exists u. split; [auto|]. split; [apply stepb_step; auto|apply HX; auto].
  - apply or_not_true; auto using img2_not_true.
  - intros s K. apply in_app_or in K. destruct K as [K|K]; [auto|apply (filter_incl _ s K)].
Qed.
Definition tresult (k : nat) : list (list nat) := let T := filter able (tF k) in tcollect (rev ps) T T.
Lemma result_is : forall k, same (tF k) (tF (S k)) = true -> forall j, settled_at ds ps None j -> is (result ds ps None j) (tresult k) /\ incl (tresult k) all.
Proof.
  intros k SK j SJ. apply settled_same in SK. unfold result, collected, tresult. destruct (F_is k) as ((_ & H1) & IN).
  destruct (F_proper ds ps OK None Logic.I j) as (SF & NF).
  assert (B : is (and_PFmla (UniringProofs3.F ds ps None j) (xpre ds ps)) (filter able (tF k))).
  { split; [apply and_static; auto; apply xpre_static; auto|]. intros s O. rewrite holds_and, (xpre_enabled ds ps OK s O), filter_In, able_enabled.
    destruct (lift ds s O) as (s' & <-). rewrite <- (pr_holds ds), (settled_unique j k SJ SK s'), (pr_holds ds), (H1 _ O). tauto. }
  assert (NB : and_PFmla (UniringProofs3.F ds ps None j) (xpre ds ps) <> Cst true) by (apply and_not_true; auto).
  assert (IB : incl (filter able (tF k)) all) by (intros s K; apply filter_In in K; apply IN; tauto).
  apply collect_is; auto. apply Forall_rev; auto.
Qed.
(** The answer of the cycle check, when no number of layers is asked for *)
Lemma evaluated : forall k, same (tF k) (tF (S k)) = true -> forall fuel inv, prod ds < fuel ->
  (forallb able (tresult k) = true -> exists scc, uniring_cycle_ck ds ps fuel None inv None = Some (Cycles (negb (same (tresult k) [])) scc None)) /\
  (forallb able (tresult k) = false -> uniring_cycle_ck ds ps fuel None inv None = Some Stopped).
Proof.
  intros k SK fuel inv FU. destruct (check ds INH ps OK None Logic.I fuel None inv FU) as (ans & E & H). rewrite E.
  assert (G : forall j, settled_at ds ps None j -> (subseteq_ck ds (result ds ps None j) (xpre ds ps) = true <-> forallb able (tresult k) = true)).
  { intros j SJ. destruct (result_is k SK j SJ) as ((SR & R) & IN). rewrite (subset_state ds INH _ _ SR (xpre_static ds ps OK)). rewrite forallb_forall. split.
    - intros K s S. apply able_enabled. assert (O : ok s) by (apply all_ok, IN; auto). apply (xpre_enabled ds ps OK s O), K; auto. apply R; auto.
    - intros K s O S. apply (xpre_enabled ds ps OK s O), able_enabled, K. apply R; auto. }
  destruct ans as [n| |found scc nl].
  - destruct H as (lim & C & _). discriminate.
  - destruct H as (j & SJ & SUB). assert (NT := G j SJ). rewrite SUB in NT. split; [intros K; apply NT in K; discriminate|auto].
  - destruct H as (j & SJ & -> & -> & SUB & ->). apply (G j SJ) in SUB. split; [|congruence]. intros _. exists (result ds ps None j). f_equal. f_equal.
    destruct (result_is k SK j SJ) as (R & IN). apply eq_true_iff_eq. rewrite (is_sat _ _ R IN), negb_true_iff, <- not_true_iff_false, same_iff.
    destruct (tresult k) as [|s T]; [split; [congruence|intros C; destruct C; tauto]|]. split; [|congruence]. intros _ C.
    assert (O : ok s) by (apply all_ok, IN; left; auto). apply (C s O). left; auto.
Qed.

(** The reachability check *)
Variables (inv : fmla) (L : list (list nat)).
Hypothesis IL : is inv L.
Definition tback (T : list (list nat)) (p : proc) : list (list nat) :=
  filter (fun s => existsb (stepb p s) T && negb (mem s L) && negb (existsb (stepb p s) (filter (fun t => mem t L) all))) all.
Lemma back_is : forall X T p, proc_ok ds p -> (exists f, xn p = Mdd f) -> is X T -> incl T all -> is (back ds inv X p) (tback T p).
Proof.
  intros X T p P MX (SX & H) IN. destruct IL as (SI & HI). set (Y := nimp_PFmla (pre2_PFmla ds (xn p) X (wvbls p)) inv).
  assert (SY : state_fmla ds Y) by (apply nimp_static; auto; apply pre2_static; auto).
  assert (NY : Y <> Cst true).
  { apply nimp_not_true. destruct MX as (f & ->). destruct X as [[]|]; cbn; discriminate. }
  assert (SZ : state_fmla ds (and_PFmla (img2_PFmla ds (xn p) Y (wvbls p)) inv)) by (apply and_static; auto; apply img2_static; auto).
  split; [apply nimp_static; auto; apply pre2_static; auto|].
  intros s O. unfold back. fold Y. rewrite holds_nimp, (pre2_one ds p _ s P O SZ). unfold tback.
  rewrite filter_In, !andb_true_iff, !negb_true_iff, <- !not_true_iff_false, mem_in, !existsb_exists.
  assert (HY : forall s, ok s -> (holds Y s <-> (exists t, In t T /\ stepb p s t = true) /\ ~ In s L)).
  { clear s O. intros s O. unfold Y. rewrite holds_nimp, (pre2_one ds p X s P O SX), (HI s O). split; intros (K & NI); (split; [|auto]).
    - destruct K as (t & OT & ST & K). exists t. split; [apply H; auto|apply stepb_step; auto].
    - destruct K as (t & K & ST). assert (OT : ok t) by (apply all_ok, IN; auto). exists t. split; [auto|]. split; [apply stepb_step; auto|apply H; auto]. }
  rewrite (HY s O). split.
  - intros ((K & NI) & NB). split; [apply all_ok; auto|]. split; [auto|]. intros (t & TI & ST). apply NB. apply filter_In in TI. destruct TI as (TA & TI). apply mem_in in TI.
    apply all_ok in TA. exists t. split; [auto|]. split; [apply stepb_step; auto|]. apply holds_and. split; [|apply HI; auto].
    apply (img2_one ds p Y t P TA SY NY). exists s. split; [auto|]. split; [apply stepb_step; auto|]. apply HY; auto.
  - intros (_ & (K & NI) & NB). split; [auto|]. intros (t & OT & ST & K'). apply holds_and in K'. destruct K' as (_ & K'). apply NB. exists t. split; [|apply stepb_step; auto].
    apply filter_In. split; [apply all_ok; auto|]. apply mem_in, HI; auto.
Qed.
Lemma tback_incl : forall T p, incl (tback T p) all.
Proof. intros. apply filter_incl. Qed.
Hypothesis MX : forall p, In p ps -> exists f, xn p = Mdd f.
Fixpoint tback_sweep (qs : list proc) (T : list (list nat)) : list (list nat) * bool :=
  match qs with
  | [] => (T, false)
  | p :: qs' => match T with [] => ([], true) | _ => tback_sweep qs' (tback T p) end
  end.
Lemma back_sweep_is : forall qs, (forall p, In p qs -> In p ps) -> forall n X T, is X T -> incl T all -> exists m Y,
  back_sweep ds inv qs n X = (m, Y, snd (tback_sweep qs T)) /\ is Y (fst (tback_sweep qs T)) /\ incl (fst (tback_sweep qs T)) all.
Proof.
  induction qs as [|p qs IH]; intros SUB n X T H IN; [exists n, X; auto|]. cbn [back_sweep tback_sweep].
  pose proof (is_sat X T H IN) as SAT. destruct T as [|s T].
  - destruct (sat_ck ds X); [destruct (proj1 SAT eq_refl); auto|]. exists n, X. auto.
  - destruct (sat_ck ds X) eqn:E; [|assert (C : false = true) by (apply SAT; discriminate); discriminate]. cbn [negb].
    apply IH; [intros q Q; apply SUB; right; auto|apply back_is; auto|apply tback_incl].
    + rewrite Forall_forall in OK. apply OK, SUB. left; auto.
    + apply MX, SUB. left; auto.
Qed.
Definition tfirst (A : list (list nat)) : list (list nat) :=
  filter (fun s => mem s A && negb (mem s L) && forallb (fun p => negb (acts p s)) (firstn (length ps - 1) ps)) all.
Lemma first_is : forall assumed A, is assumed A ->
  is (fold_left (fun x p => nimp_PFmla x (pre_PFmla ds (xn p))) (firstn (length ps - 1) ps) (nimp_PFmla assumed inv)) (tfirst A).
Proof.
  intros assumed A (SA & HA). destruct IL as (SI & HI).
  assert (F : Forall (proc_ok ds) (firstn (length ps - 1) ps)).
  { rewrite Forall_forall in *. intros p P. apply OK. rewrite <- (firstn_skipn (length ps - 1)). apply in_or_app. auto. }
  split; [apply minus_static; auto; apply nimp_static; auto|]. intros s O. rewrite (minus_holds ds _ _ s F O), holds_nimp, (HA s O), (HI s O).
  unfold tfirst. rewrite filter_In, !andb_true_iff, negb_true_iff, <- not_true_iff_false, !mem_in, forallb_forall. split.
  - intros ((K & NI) & NA). split; [apply all_ok; auto|]. split; [auto|]. intros p P. apply negb_true_iff, not_true_iff_false. rewrite acts_can. auto.
  - intros (_ & (K & NI) & NA). split; [auto|]. intros p P. rewrite <- acts_can. apply not_true_iff_false, negb_true_iff. auto.
Qed.
Fixpoint tloop (fuel : nat) (T : list (list nat)) : option bool :=
  match fuel with
  | 0 => None
  | S fuel' =>
      let '(T', done) := tback_sweep (rev ps) T in
      if done then Some true else if same T' T then Some false else tloop fuel' T'
  end.
Lemma loop_is : forall fuel n X T, is X T -> incl T all ->
  match back_loop ds ps fuel inv n X with Some (b, _) => tloop fuel T = Some b | None => tloop fuel T = None end.
Proof.
  induction fuel as [|fuel IH]; intros n X T H IN; [reflexivity|]. cbn [back_loop tloop].
  destruct (back_sweep_is (rev ps) ltac:(intros p P; apply in_rev; auto) n X T H IN) as (m & Y & E & HY & IY). rewrite E.
  destruct (tback_sweep (rev ps) T) as (T', d). cbn [fst snd] in *. destruct d; [reflexivity|].
  pose proof (is_equiv Y T' X T HY H) as EQ. rewrite <- same_iff in EQ. destruct (equiv_ck ds Y X).
  - rewrite (proj1 EQ eq_refl). reflexivity.
  - destruct (same T' T); [assert (C : false = true) by (apply EQ; auto); discriminate|]. apply IH; auto.
Qed.
Lemma tfirst_incl : forall A, incl (tfirst A) all.
Proof. intros. apply filter_incl. Qed.
Lemma weak_is : forall assumed A, is assumed A -> forall fuel,
  forallb (fun s => negb (mem s A) || mem s L || able s) all = true ->
  match uniring_weak_convergence_ck ds ps fuel inv assumed with Some (b, _) => tloop fuel (tfirst A) = Some b | None => tloop fuel (tfirst A) = None end.
Proof.
  intros assumed A HA fuel D. unfold uniring_weak_convergence_ck. pose proof (first_is assumed A HA) as FI. destruct HA as (SA & HA), IL as (SI & HI).
  assert (SUB : subseteq_ck ds (nimp_PFmla assumed inv) (xpre ds ps) = true).
  { apply (subset_state ds INH); [apply nimp_static; auto|apply xpre_static; auto|]. intros s O K. apply holds_nimp in K. destruct K as (K & NI).
    apply (xpre_enabled ds ps OK s O), able_enabled. rewrite forallb_forall in D. specialize (D s (proj2 (all_ok s) O)). apply HA in K; auto.
    apply mem_in in K. rewrite K in D. cbn [negb orb] in D. apply orb_true_iff in D. destruct D as [D|D]; auto. destruct NI. apply HI; auto. apply mem_in; auto. }
  rewrite SUB. cbn [negb]. apply loop_is; auto using tfirst_incl.
Qed.
End System.
(** Reachability *)
Definition tpre (ps : list proc) (T : list (list nat)) : list (list nat) :=
  T ++ filter (fun s => existsb (fun t => existsb (fun p => stepb p s t) ps) T) all.
Lemma tpre_reaches : forall ps L, incl L all -> forall k s, In s (Nat.iter k (tpre ps) L) -> ok s /\ exists t, In t L /\ reaches _ (system_step ds ps) s t.
Proof.
  intros ps L IN. induction k as [|k IH]; intros s H.
  - split; [apply all_ok; auto|]. exists s. split; auto. apply reaches_refl.
  - cbn in H. apply in_app_or in H. destruct H as [H|H]; [auto|]. apply filter_In in H. destruct H as (O & H). apply all_ok in O. split; auto.
    apply existsb_exists in H. destruct H as (t & T & H). destruct (IH t T) as (OT & u & U & R). exists u. split; auto.
    eapply reaches_trans; [|exact R]. apply reaches_step. split; [auto|]. split; [auto|]. apply existsb_exists in H. destruct H as (p & P & H). exists p. split; auto. apply stepb_step; auto.
Qed.
Lemma tclosed : forall ps T, forallb (fun s => forallb (fun t => negb (existsb (fun p => stepb p s t) ps) || mem t T) all) T = true ->
  closed _ (system_step ds ps) (fun s => In s T).
Proof.
  intros ps T H s t S (OS & OT & p & P & ST). rewrite forallb_forall in H. specialize (H s S). rewrite forallb_forall in H. specialize (H t (proj2 (all_ok t) OT)).
  apply orb_true_iff in H. destruct H as [H|H]; [|apply mem_in; auto]. apply negb_true_iff in H.
  assert (C : existsb (fun p => stepb p s t) ps = true) by (apply existsb_exists; exists p; split; auto; apply stepb_step; auto). congruence.
Qed.
Lemma listed_closed : forall ps T, incl T all -> forallb (fun s => forallb (fun t => negb (existsb (fun p => stepb p s t) ps) || mem t T) all) T = true ->
  closed_set ds ps (listed T).
Proof.
  intros ps T IN H. destruct (listed_is T) as (SL & HL). split; auto. intros s t K ST. assert (OS : ok s) by apply ST. assert (OT : ok t) by apply ST.
  apply HL; auto. apply (tclosed ps T H s t); auto. apply HL; auto.
Qed.
End Tables.
