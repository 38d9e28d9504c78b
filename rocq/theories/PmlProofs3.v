(** Promela: the alternatives of a process and what they do. *)
From Coq Require Import NArith.
From Verif Require Import UdpModel UdpSpec.
From Coq Require Import String List Arith Bool ZArith Lia.
From Verif Require Import FinLib Radix ParseModel AccessModel AccessSpec PrintModel FmlaModel FmlaSpec FmlaProofs FmlaProofs2 FmlaProofs3 FmlaProofs4 FmlaProps
  IntModel IntSpec ExprModel ExprSpec
  ActModel ActSpec ActProofs ActProofs2 ActProofs4 ActProps NetModel NetSpec NetProofs NetProofs2 NetProofs3 NetProofs4 NetProofs5 NetProps
  CandModel CandSpec CandProofs GivenSpec GivenProofs SyncProofs UgenModel UgenProofs UgenSpec UgenProofs2 UgenProofs3 UgenProofs4 UgenProofs6 UgenProofs7
  CmdModel PrintProofs4 UgenSpec UgenProofs7 PmlModel PmlSpec PmlProofs PmlProofs2.
Import ListNotations.
Local Open Scope list_scope.
Local Open Scope nat_scope.

Definition wvals (k : pcsymm) (y : list nat) : list nat := map (fun i => nth i y 0) (wmap k).

Lemma nodup_map_in : forall A B (f : A -> B) l, (forall a b, In a l -> In b l -> f a = f b -> a = b) -> NoDup l -> NoDup (map f l).
Proof.
  intros A B f l. induction l as [|x l IH]; intros H N; cbn [map]; constructor; inversion N as [|? ? N1 N2]; subst.
  - intros I. apply in_map_iff in I. destruct I as (y & E & Y). apply H in E; [|right; auto|left; auto]. congruence.
  - apply IH; auto. intros a b P Q. apply H; right; auto.
Qed.

Section Listed.
Variable T : network.
Notation ds := (vdoms T).
Notation ok := (FmlaSpec.ok (vdoms T)).
Hypothesis HT : net_ok T.
Hypothesis PL : plain_kinds (kinds T).
Variable actions : list nat.
Hypothesis ACTS : proper_actions T actions.

Lemma step_cells : forall j q, nth_error (pcs T) j = Some q -> NoDup (p_vbls q) -> forall a s t, In a actions -> ok s -> ok t ->
  (process_step T (action_xfmlae T true a) j s t <->
   kind_can_do (kinds T) [a] (p_kind q) (cells T q s) (cells T q t) /\ frame T q s t).
Proof.
  intros j q Hj ND a s t A S Tt. destruct (ACTS a A) as (B1 & B2). rewrite (C64_lightweight_exact T a j q s t HT B1 B2 Hj S Tt).
  assert (FK : forall u, ok u -> fits (its_kind T q) (cells T q u)) by (intros u U; apply (cells_fit T HT j q Hj); auto).
  unfold kind_can_do. fold (its_kind T q). split.
  - intros (M & Q). pose proof M as (r & R1 & R2 & R3 & _). assert (KA : act_pc (act_of (kinds T) a) = p_kind q) by (destruct R2 as (R2 & _); congruence).
    specialize (Q (det T HT PL j q Hj a KA)). apply (class_cells_iff T HT PL j q Hj ND) in M. destruct M as (M & F). split; auto.
    exists a. split; [left; auto|]. split; auto. split; auto. split; auto. split; auto. intros (z & Z1 & Z2). apply Q.
    destruct (with_cells T HT j q Hj ND s z S Z1) as (u & U1 & U2 & U3). exists u. split; auto. apply (class_cells_iff T HT PL j q Hj ND). rewrite U2. split; auto.
    intros v L I. symmetry. apply U3; auto.
  - intros ((a' & [<-|[]] & KA & F1 & F2 & M & Q) & F). assert (M' : class_move T a q s t) by (apply (class_cells_iff T HT PL j q Hj ND); auto).
    split; auto. intros _ (u & U1 & U2). apply Q. apply (class_cells_iff T HT PL j q Hj ND) in U2. destruct U2 as (U2 & _). exists (cells T q u). auto.
Qed.

Lemma one_action : forall acts k x y, kind_can_do (kinds T) acts k x y <-> exists a, In a acts /\ kind_can_do (kinds T) [a] k x y.
Proof.
  intros acts k x y. unfold kind_can_do. split.
  - intros (a & A & H). exists a. split; auto. exists a. split; [left; auto|auto].
  - intros (a & A & (a' & [<-|[]] & H)). exists a. auto.
Qed.

Lemma cells_wvals : forall j q, nth_error (pcs T) j = Some q -> forall t, map (value t q) (wmap (kind_of T q)) = wvals (kind_of T q) (cells T q t).
Proof.
  intros j q Hj t. unfold wvals. apply map_ext_in. intros i I. apply filter_In in I. destruct I as (I & _). apply in_seq in I. symmetry. apply (cells_nth T HT PL j q Hj). destruct I as (_ & I). exact I.
Qed.

(** What unroll_action lists for a kind *)
Definition alternative (q : process) (acts : list nat) (v : list nat) : Prop :=
  exists x y, kind_can_do (kinds T) acts (p_kind q) x y /\ assumed T q x /\ v = x ++ wvals (kind_of T q) y.

Lemma unroll_one : forall a fuel, In a actions -> 2 * length (assignments ds) < fuel -> exists l, unroll_action T true fuel a = Some l /\
  forall j q, pattern T (p_kind q) j q -> NoDup (p_vbls q) -> forall v, In {| act_pc := p_kind q; vals := v |} l <-> alternative q [a] v.
Proof.
  intros a fuel A F. destruct (ACTS a A) as (B1 & B2).
  assert (PM : forall j q, pattern T (p_kind q) j q -> NoDup (p_vbls q) -> representative T (p_kind q) = Some (j, q)).
  { intros j q P ND. pose proof (pattern_memb T HT _ _ _ P) as E. unfold some_memb in E. pose proof (representative_cases T HT (p_kind q)) as RC. destruct (representative T (p_kind q)) as [jq|]; auto.
    exfalso. destruct P as (P & _). apply (RC q); auto. eapply nth_error_In; eauto. }
  pose proof (representative_cases T HT (act_pc (act_of (kinds T) a))) as RC. destruct (representative T (act_pc (act_of (kinds T) a))) as [(j0, q0)|] eqn:E.
  - destruct RC as (R1 & R2 & R3 & _). destruct (unroll_spec T HT j0 q0 R1 true a B1 B2 E R2 fuel F) as (l & EL & HL). exists l. split; auto.
    intros j q P ND v. rewrite HL. cbn [act_pc vals]. unfold alternative. split.
    + intros (K & s & t & S & Tt & H & AS & V). specialize (PM j q P ND). assert (Q : (j, q) = (j0, q0)) by (rewrite K, R2 in PM; congruence). injection Q as -> ->.
      exists (cells T q0 s), (cells T q0 t). apply (step_cells j0 q0 R1 ND a s t A S Tt) in H. destruct H as (H & _). split; auto. split; [exists s; auto|].
      rewrite V. rewrite (filled_plain T HT PL j0 q0 R1). rewrite (cells_wvals j0 q0 R1). reflexivity.
    + intros (x & y & H & AS & V). pose proof H as H'. destruct H' as (a' & [<-|[]] & KA & _ & FY & _ ). specialize (PM j q P ND).
      assert (Q : (j, q) = (j0, q0)) by congruence. injection Q as -> ->. split; auto. destruct AS as (s & S & <- & AS).
      destruct (with_cells T HT j0 q0 R1 ND s y S FY) as (t & Tt & <- & FR). exists s, t. split; auto. split; auto. split; [apply (step_cells j0 q0 R1 ND); auto|]. split; auto.
      rewrite V. rewrite (filled_plain T HT PL j0 q0 R1). rewrite (cells_wvals j0 q0 R1). reflexivity.
  - rewrite (unroll_none T true fuel a E). exists []. split; auto. intros j q P ND v. split; [intros []|]. intros (x & y & (a' & [<-|[]] & KA & _) & _).
    specialize (PM j q P ND). congruence.
Qed.
Lemma unroll_list : forall fuel, 2 * length (assignments ds) < fuel -> exists l, unroll_all T true fuel actions = Some l /\
  forall j q, pattern T (p_kind q) j q -> NoDup (p_vbls q) -> forall v, In {| act_pc := p_kind q; vals := v |} l <-> alternative q actions v.
Proof.
  intros fuel F.
  assert (G : forall acts, incl acts actions -> exists l, unroll_all T true fuel acts = Some l /\
    forall j q, pattern T (p_kind q) j q -> NoDup (p_vbls q) -> forall v, In {| act_pc := p_kind q; vals := v |} l <-> alternative q acts v).
  { induction acts as [|a acts IH]; intros INC; cbn [unroll_all].
    - exists []. split; auto. intros j q _ _ v. split; [intros []|]. intros (x & y & (a & [] & _) & _).
    - destruct (unroll_one a fuel) as (l1 & E1 & H1); [apply INC; left; auto|auto|]. destruct IH as (l2 & E2 & H2); [intros b B; apply INC; right; auto|].
      rewrite E1, E2. eexists. split; [reflexivity|]. intros j q P ND v. rewrite in_app_iff, (H1 j q P ND), (H2 j q P ND). unfold alternative. split.
      + intros [(x & y & H & X)|(x & y & H & X)]; exists x, y; (split; [|auto]); apply one_action; apply one_action in H; destruct H as (b & B & H).
        * destruct B as [<-|[]]. exists a. split; [left; auto|auto].
        * exists b. split; [right; auto|auto].
      + intros (x & y & H & X). apply one_action in H. destruct H as (b & [<-|B] & H); [left|right]; exists x, y; (split; [|auto]); auto. apply one_action. exists b. auto. }
  apply G. intros x X. exact X.
Qed.
End Listed.

(** ** Running an alternative *)
Section Run.
Variable O : network.
Notation ok := (FmlaSpec.ok (vdoms O)).
Hypothesis HO : net_ok O.
Hypothesis PL : plain_kinds (kinds O).
Variables (arrays : list (string * list nat)) (cs : list (string * sexp)) (ks : list kind_text).
Hypothesis DN : describes_net O arrays cs ks.
Variable M : pmodel.
Hypothesis MC : m_consts M = texts cs.
Hypothesis MA : m_arrays M = map (fun xl => (fst xl, (array_dom O (snd xl), length (snd xl)))) arrays.

Section Process.
Variables (i j : nat) (p : process).
Hypothesis Hi : nth_error (pcs O) i = Some p.
Let Hp : In p (pcs O) := nth_error_In _ _ Hi.
Hypothesis Hjk : jth_of_kind O (p_kind p) j i p.
Hypothesis ND : NoDup (p_vbls p).
Notation kd := (its_kind O p).
Notation kt := (nth (p_kind p) ks kind_text0).
Variable t : proctype.
Hypothesis TI : t_idx t = k_idx kt.
Hypothesis TM : t_idxmap t = k_idxmap kt.
Hypothesis TL : t_lets t = k_lets kt.

Lemma assoc_in : forall A x (l : list (string * A)) v, assoc x l = Some v -> In (x, v) l.
Proof. intros A x l v. induction l as [|(y, w) l IH]; cbn [assoc]; [discriminate|]. destruct (String.eqb_spec x y) as [->|NE]; intros H; [injection H as ->; left; auto|right; auto]. Qed.

(** A reference is to the variable of the access; and what is assigned to it stays. *)
Lemma refs : exists env, process_env M t (t_offset t + j) = Some env /\
  forall k, k < length (accs kd) -> cell_of arrays env (access_ref arrays kt k) = Some (vbl_at p k) /\
    forall v, v < a_dom (nth k (accs kd) acc0) -> kept M (access_ref arrays kt k) v = v.
Proof.
  destruct (dn_kinds _ _ _ _ DN (p_kind p) (no_kind _ HO p Hp)) as (ls & im & KA & MT). fold kd in KA.
  destruct (MT j i p Hjk) as (G & ix & MTp). fold kd in MTp. clear MT.
  destruct (env_read arrays cs ls kt im G j ix kd p (dn_consts _ _ _ _ DN) KA MTp M MC t TI TM TL) as (env & E & EN).
  exists env. split; auto. intros k L. destruct (mt_slots _ _ _ _ _ _ _ _ _ _ MTp k L) as (z & l & V & IX & AR & NE & MB). cbv zeta in *.
  destruct (ka_slots_like _ _ _ _ _ KA k L) as (C & INC). unfold access_ref. cbv zeta. unfold members_of. rewrite AR.
  assert (LEN : 0 < length l) by (destruct l; [congruence|cbn; lia]). split.
  - rewrite (ref_read (length l) LEN env G [(k_idx kt, ix)] arrays (sl_array (nth k (k_slots kt) slot0)) (sl_text (nth k (k_slots kt) slot0)) l (nth k (k_indices kt) []) z); auto.
    + intros x X. apply EN. apply INC. exact X.
    + eapply nth_error_In; eauto.
  - intros v LV. unfold OPutPromelaVblRef. destruct (add_mod (length l) (nth k (k_indices kt) [])) as (av, mv). cbn [kept]. rewrite MA.
    assert (AS : assoc (sl_array (nth k (k_slots kt) slot0)) (map (fun xl => (fst xl, (array_dom O (snd xl), length (snd xl)))) arrays) = Some (array_dom O l, length l)).
    { clear -AR. induction arrays as [|(y, w) r IH]; cbn [assoc map fst snd] in *; [discriminate|]. destruct (String.eqb _ y); [injection AR as ->; reflexivity|auto]. }
    rewrite AS. assert (INl : In (vbl_at p k) l) by (unfold member in MB; eapply nth_error_In; eauto).
    assert (D : array_dom O l = a_dom (nth k (accs kd) acc0)).
    { unfold array_dom. change (nth k (accs kd) acc0) with (access_at O p k). destruct (no_id _ HO p k Hp L) as (_ & <- & _). apply (dn_doms _ _ _ _ DN (sl_array (nth k (k_slots kt) slot0)) l); auto; [apply assoc_in; exact AR|].
      apply nth_In. exact LEN. }
    rewrite D. destruct (no_id _ HO p k Hp L) as (LV' & D2 & _). pose proof (dn_bytes _ _ _ _ DN) as BY. rewrite Forall_forall in BY.
    assert (B : a_dom (access_at O p k) <= 256) by (rewrite <- D2; apply BY; apply nth_In; exact LV'). unfold access_at in B.
    destruct (Nat.eqb_spec (a_dom (nth k (accs kd) acc0)) 2); apply Nat.mod_small; lia.
Qed.

Lemma guard_run : forall env v s l, (forall k, In k l -> cell_of arrays env (access_ref arrays kt k) = Some (vbl_at p k)) ->
  exists b, run_guard arrays env (map (fun k => (access_ref arrays kt k, guard v k)) l) s = Some b /\ (b = true <-> forall k, In k l -> value s p k = guard v k).
Proof.
  intros env v s l. induction l as [|k l IH]; intros C; cbn [map run_guard].
  - exists true. split; auto. split; auto. intros _ k [].
  - rewrite (C k (or_introl eq_refl)). fold (value s p k). destruct (Nat.eqb_spec (value s p k) (guard v k)) as [E|E].
    + destruct IH as (b & EB & HB); [intros m I; apply C; right; auto|]. exists b. split; auto. rewrite HB. split; [intros H m [<-|I]; auto|intros H m I; apply H; right; auto].
    + exists false. split; auto. split; [discriminate|]. intros H. exfalso. apply E, H. left; auto.
Qed.
Lemma assign_run : forall env v l s, (forall w, In w l -> cell_of arrays env (access_ref arrays kt (nth w (wmap kd) 0)) = Some (vbl_at p (nth w (wmap kd) 0)) /\
     kept M (access_ref arrays kt (nth w (wmap kd) 0)) (assign kd v w) = assign kd v w /\ vbl_at p (nth w (wmap kd) 0) < length s) ->
  NoDup (map (fun w => vbl_at p (nth w (wmap kd) 0)) l) ->
  exists t', run_assign M arrays env (map (fun w => (access_ref arrays kt (nth w (wmap kd) 0), assign kd v w)) l) s = Next t' /\ length t' = length s /\
    (forall w, In w l -> value t' p (nth w (wmap kd) 0) = assign kd v w) /\
    (forall x, ~ In x (map (fun w => vbl_at p (nth w (wmap kd) 0)) l) -> nth x t' 0 = nth x s 0).
Proof.
  intros env v l. induction l as [|w l IH]; intros s C N; cbn [map run_assign].
  - exists s. split; auto. split; auto. split; [intros w []|auto].
  - destruct (C w (or_introl eq_refl)) as (C1 & C2 & C3). rewrite C1, C2. cbn [map] in N. inversion N as [|? ? N1 N2]; subst.
    destruct (IH (upd s (vbl_at p (nth w (wmap kd) 0)) (assign kd v w))) as (t' & E & L & V & FR); auto.
    { intros w' I. rewrite upd_length. apply C. right; auto. }
    exists t'. split; auto. split; [rewrite L, upd_length; reflexivity|]. split.
    + intros w' [<-|I]; auto. unfold value. rewrite FR by exact N1. rewrite nth_upd_same; auto.
    + intros x X. cbn [map In] in X. rewrite FR by tauto. rewrite nth_upd_other; auto.
Qed.

(** An alternative in terms of the cells *)
Lemma option_run : forall v s, length v = length (accs kd) + length (wmap kd) -> ok s ->
  (forall w, w < nw kd -> assign kd v w < a_dom (waccess kd w)) ->
  (run_option M arrays t (t_offset t + j) (OPutPromelaAction arrays kt kd v) s = Blocked /\ cells O p s <> firstn (nr kd) v) \/
  (cells O p s = firstn (nr kd) v /\ exists t', run_option M arrays t (t_offset t + j) (OPutPromelaAction arrays kt kd v) s = Next t' /\ length t' = length s /\
     (forall w, w < nw kd -> value t' p (nth w (wmap kd) 0) = assign kd v w) /\
     (forall x, (forall w, w < nw kd -> x <> vbl_at p (nth w (wmap kd) 0)) -> nth x t' 0 = nth x s 0)).
Proof.
  intros v s LV S DV. destruct refs as (env & E & R). unfold run_option. rewrite E. cbn [OPutPromelaAction o_guard o_assign].
  destruct (guard_run env v s (seq 0 (nr kd))) as (b & EB & HB). { intros k K. apply in_seq in K. apply R. unfold nr in K. lia. }
  rewrite EB. 
  assert (CE : cells O p s = firstn (nr kd) v <-> forall k, In k (seq 0 (nr kd)) -> value s p k = guard v k).
  { unfold cells. rewrite (all_shown O HO PL i p Hi). fold (nr kd). split.
    - intros X k K. apply in_seq in K. assert (Y : nth k (map (fun i0 => value s p i0) (seq 0 (nr kd))) 0 = nth k (firstn (nr kd) v) 0) by (rewrite X; reflexivity).
      rewrite (nth_indep _ 0 (value s p 0)) in Y by (rewrite map_length, seq_length; lia). rewrite map_nth, seq_nth in Y by lia. cbn in Y. rewrite Y. unfold guard.
      rewrite <- (firstn_skipn (nr kd) v) at 2. rewrite app_nth1; auto. rewrite firstn_length. unfold nr in *. lia.
    - intros X. apply nth_ext with (d := value s p 0) (d' := 0); [rewrite map_length, seq_length, firstn_length; unfold nr in *; lia|].
      intros k K. rewrite map_length, seq_length in K. rewrite map_nth, seq_nth by lia. cbn [plus]. rewrite (X k) by (apply in_seq; lia). unfold guard.
      rewrite <- (firstn_skipn (nr kd) v) at 1. rewrite app_nth1; auto. rewrite firstn_length. unfold nr in *. lia. }
  assert (WL : forall w, w < nw kd -> nth w (wmap kd) 0 < length (accs kd)).
  { intros w L. assert (I : In (nth w (wmap kd) 0) (wmap kd)) by (apply nth_In; exact L). apply filter_In in I. destruct I as (I & _). apply in_seq in I. unfold nr in I. lia. }
  destruct b.
  - right. assert (X : cells O p s = firstn (nr kd) v) by (apply CE, HB; reflexivity). split; auto.
    destruct (assign_run env v (seq 0 (nw kd)) s) as (t' & ET & LT & VT & FT).
    { intros w W. apply in_seq in W. assert (L : w < nw kd) by lia. destruct (R _ (WL w L)) as (R1 & R2). split; auto. split; [apply R2; apply DV; exact L|].
      rewrite (ok_length _ _ S). apply (no_id _ HO p _ Hp (WL w L)). }
    { assert (NW : NoDup (wmap kd)) by (apply NoDup_filter, seq_NoDup). 
      apply nodup_map_in; [|apply seq_NoDup]. intros a b A B EQ. apply in_seq in A. apply in_seq in B.
      apply (vbl_inj O HO i p Hi ND) in EQ; [|apply WL; lia|apply WL; lia]. apply (proj1 (NoDup_nth (wmap kd) 0) NW); unfold nw in *; lia || auto. }
    exists t'. split; auto. split; auto. split; [intros w W; apply VT, in_seq; lia|]. intros x X'. apply FT. intros I. apply in_map_iff in I. destruct I as (w & <- & W). apply in_seq in W. apply (X' w); [lia|reflexivity].
  - left. split; auto. intros X. assert (F : false = true) by (apply HB, CE; exact X). discriminate.
Qed.
End Process.
End Run.
