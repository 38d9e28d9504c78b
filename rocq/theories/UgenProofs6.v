(** Generated UDP code: the functions per kind of processes, and the runtime network. *)
From Coq Require Import NArith.
From Verif Require Import UdpModel UdpSpec.
From Coq Require Import List Arith Bool Lia.
From Verif Require Import FinLib Radix FmlaModel FmlaSpec FmlaProofs FmlaProofs2 FmlaProofs3 FmlaProofs4 FmlaProps ActModel ActSpec ActProofs ActProofs2 ActProofs4 ActProps NetModel NetSpec NetProofs NetProofs2 NetProofs3 NetProofs4 NetProofs5 CandModel CandSpec CandProofs GivenSpec GivenProofs SyncProofs UgenModel UgenProofs UgenSpec UgenProofs2 UgenProofs3 UgenProofs4 UgenProofs5.
Import ListNotations.

Section T.
Variable T : network.
Hypothesis HT : net_ok T.
Lemma first_memb : forall k, match hd_error (membs T k) with
  | Some (j, q) => nth_error (pcs T) j = Some q /\ p_kind q = k /\ forall j' q', j' < j -> nth_error (pcs T) j' = Some q' -> p_kind q' <> k
  | None => forall q, In q (pcs T) -> p_kind q <> k end.
Proof.
  intros k. destruct (membs T k) as [|(j, q) l] eqn:E; cbn [hd_error].
  - apply membs_nil. auto.
  - assert (I : In (j, q) (membs T k)) by (rewrite E; cbn; auto). apply (membs_in (any_sys T)) in I. destruct I as (I1 & I2). split; auto. split; auto.
    intros j' q' L N K. assert (F : find (fun _ => true) (membs T k) = Some (j, q)) by (rewrite E; reflexivity).
    destruct (find_first _ _ _ (membs_increasing (any_sys T) k) F) as (_ & _ & X).
    assert (Y : true = false). { apply (X (j', q')); [apply (membs_in (any_sys T)); auto|cbn; lia]. } discriminate.
Qed.
Lemma memb_pattern : forall k, match some_memb T k with Some (j, q) => pattern T k j q | None => forall q, In q (pcs T) -> p_kind q <> k end.
Proof.
  intros k. unfold some_memb. pose proof (representative_cases T HT k) as R. destruct (representative T k) as [(j, q)|].
  - destruct R as (R1 & R2 & R3 & R4). split; auto.
  - pose proof (first_memb k) as M. destruct (hd_error (membs T k)) as [(j, q)|]; auto. destruct M as (M1 & M2 & M3). split; auto.
Qed.
Lemma pattern_memb : forall k j q, pattern T k j q -> some_memb T k = Some (j, q).
Proof.
  intros k j q (P1 & P2 & P3). pose proof (memb_pattern k) as M. destruct (some_memb T k) as [(j', q')|].
  - destruct M as (M1 & M2 & M3). assert (E : j' = j).
    { destruct (Nat.lt_trichotomy j' j) as [L|[L|L]]; auto; exfalso.
      - destruct P3 as [(A & B)|(A & B)]; [|exact (B j' q' L M1 M2)].
        destruct M3 as [(C & _)|(C & _)]; [exact (B j' q' L M1 M2 C)|]. apply (C q); auto. eapply nth_error_In; eauto.
      - destruct M3 as [(A & B)|(A & B)]; [|exact (B j q L P1 P2)].
        destruct P3 as [(C & _)|(C & _)]; [exact (B j q L P1 P2 C)|]. apply (C q'); auto. eapply nth_error_In; eauto. }
    subst j'. congruence.
  - exfalso. apply (M q); auto. eapply nth_error_In; eauto.
Qed.
Lemma given_iff : forall q w u, same_but_given T q w u <-> agree_off (vdoms T) (map (rvbl q) (unwritten T q)) w u.
Proof.
  intros q w u. assert (G : forall v, In v (map (rvbl q) (unwritten T q)) <-> exists i, i < accesses T q /\ ~ writable (access_at T q i) /\ vbl_at q i = v).
  { intros v. rewrite in_map_iff. split.
    - intros (i & E & I). apply filter_In in I. destruct I as (I & W). apply in_seq in I. exists i. split; [apply I|]. split; auto.
      intros X. apply write_iff in X. change (access_at T q i) with (acc (kind_of T q) i) in X. rewrite X in W. discriminate.
    - intros (i & L & W & E). exists i. split; auto. apply filter_In. split; [apply in_seq; split; [lia|exact L]|].
      destruct (write_ck (acc (kind_of T q) i)) eqn:X; auto. exfalso. apply W. apply write_iff. exact X. }
  unfold same_but_given, agree_off. split; intros H v L N; apply H; auto; rewrite G in *; auto.
Qed.
End T.

Section File.
Variables (T O : network) (lw : bool) (actions : list nat).
Hypothesis HT : net_ok T.
Hypothesis HO : net_ok O.
Hypothesis SP : same_protocol T O.
Hypothesis ACTS : proper_actions T actions.

Lemma used_pattern : forall p, In p (pcs O) -> exists j q, pattern T (p_kind p) j q /\ NoDup (p_vbls q) /\ kind_of T q = its_kind O p.
Proof.
  intros p Hp. destruct (sp_used _ _ SP p Hp) as (q0 & Q1 & Q2 & Q3). pose proof (memb_pattern T HT (p_kind p)) as M.
  destruct (some_memb T (p_kind p)) as [(j, q)|]; [|exfalso; exact (M q0 Q1 Q2)]. exists j, q. split; auto. destruct M as (M1 & M2 & M3). split.
  - destruct M3 as [(A & _)|(A & _)]; auto. exfalso. exact (A q0 Q1 Q2 Q3).
  - unfold kind_of, its_kind. rewrite M2, (sp_kinds _ _ SP). reflexivity.
Qed.

Lemma all_some_none : forall A (c : chain (option A)), all_some c = None <-> exists m, In (m, None) c.
Proof.
  induction c as [|(m, [a|]) c IH]; cbn [all_some].
  - split; [discriminate|]. intros (m & []).
  - destruct (all_some c) as [r|].
    + split; [discriminate|]. intros (m' & [X|X]); [discriminate|]. destruct IH as (_ & IH). discriminate IH. eauto.
    + split; auto. intros _. destruct IH as (IH & _). destruct (IH eq_refl) as (m' & X). exists m'. cbn. auto.
  - split; auto. intros _. exists m. cbn. auto.
Qed.
Lemma by_kind_in : forall A (f : nat -> A) ks c a, (exists m, In (m, a) (by_kind T O f ks c)) <-> exists k, In k ks /\ membs T k <> [] /\ f k = a.
Proof.
  intros A f. induction ks as [|k ks IH]; intros c a; cbn [by_kind].
  - split; [intros (m & [])|intros (k & [] & _)].
  - destruct (membs T k) as [|x l] eqn:E; cbn [length Nat.eqb].
    + rewrite IH. split; [intros (k' & X1 & X2 & X3); exists k'; cbn; auto|]. intros (k' & [<-|X1] & X2 & X3); [contradiction|]. eauto.
    + cbv zeta. split.
      * intros (m & [X|X]).
        { injection X as _ X. exists k. cbn. rewrite E. split; auto. split; [discriminate|auto]. }
        destruct (proj1 (IH (c + length (membs O k)) a) (ex_intro _ m X)) as (k' & X1 & X2 & X3). exists k'. cbn. auto.
      * intros (k' & [<-|X1] & X2 & X3).
        { eexists. left. rewrite X3. reflexivity. }
        destruct (proj2 (IH (c + length (membs O k)) a) (ex_intro _ k' (conj X1 (conj X2 X3)))) as (m & X). exists m. cbn. auto.
Qed.
Lemma generated : forall fl, 2 * length (assignments (vdoms T)) < fl ->
  (gen_udp_file fl lw T O actions = None <->
   exists k j q, pattern T k j q /\
     forall u, FmlaSpec.ok (vdoms T) u -> exists w, FmlaSpec.ok (vdoms T) w /\ same_but_given T q w u /\ ~ holds (p_assume q) w).
Proof.
  intros fl FL.
  assert (ACT : exists r, all_some (per_kind T O (gen_action_kind T lw fl actions)) = Some r).
  { destruct (all_some (per_kind T O (gen_action_kind T lw fl actions))) eqn:E; [eauto|]. exfalso. apply all_some_none in E. unfold per_kind in E.
    apply by_kind_in in E. destruct E as (k & _ & M & E). pose proof (memb_pattern T HT k) as P. destruct (some_memb T k) as [(j, q)|] eqn:Q.
    - destruct P as (P1 & P2 & _). rewrite <- P2 in Q, E. destruct (body_some T HT j q P1 lw actions ACTS fl FL Q) as (b & B). congruence.
    - apply M. apply membs_nil. auto. }
  destruct ACT as (r & ACT). unfold gen_udp_file. rewrite ACT.
  assert (G : all_some (per_kind T O (gen_assume_kind T fl)) = None <-> exists k j q, pattern T k j q /\
     forall u, FmlaSpec.ok (vdoms T) u -> exists w, FmlaSpec.ok (vdoms T) w /\ same_but_given T q w u /\ ~ holds (p_assume q) w).
  { rewrite all_some_none. unfold per_kind. rewrite by_kind_in.
    assert (FX : forall k j q, pattern T k j q -> (gen_assume_kind T fl k = None <-> forall u, FmlaSpec.ok (vdoms T) u -> exists w, FmlaSpec.ok (vdoms T) w /\ same_but_given T q w u /\ ~ holds (p_assume q) w)).
    { intros k j q P. pose proof (pattern_memb T HT k j q P) as Q. destruct P as (P1 & P2 & _). rewrite <- P2 in *.
      rewrite (assume_fails T HT j q P1 fl ltac:(lia) Q). split; intros X u U; destruct (X u U) as (w & W1 & W2 & W3); exists w; split; auto; split; auto; apply given_iff; auto. }
    split.
    - intros (k & _ & M & E). pose proof (memb_pattern T HT k) as P. destruct (some_memb T k) as [(j, q)|] eqn:Q.
      + exists k, j, q. split; auto. apply (FX k j q P). auto.
      + exfalso. apply M. apply membs_nil. auto.
    - intros (k & j & q & P & X). exists k. pose proof (pattern_memb T HT k j q P) as Q. pose proof P as (P1 & P2 & _). split.
      + apply in_seq. rewrite <- P2. split; [lia|]. apply (no_kind _ HT q). eapply nth_error_In; eauto.
      + split; [|apply (FX k j q P); auto]. intros M. apply membs_nil with (p := q) in M; auto. eapply nth_error_In; eauto. }
  destruct (all_some (per_kind T O (gen_assume_kind T fl))) as [a|] eqn:E.
  - split; [discriminate|]. intros X. apply G in X. discriminate.
  - split; auto. intros _. apply G. auto.
Qed.

Variables (fl : nat) (F : udp_file).
Hypothesis FL : 2 * length (assignments (vdoms T)) < fl.
Hypothesis GEN : gen_udp_file fl lw T O actions = Some F.

Lemma domsz_eq : forall i p m, nth_error (pcs O) i = Some p -> exec_domsz (f_domsz F) i m = nth m (sizes (its_kind O p)) 0.
Proof.
  intros i p m Hp. destruct (fields T O fl lw actions F GEN) as (_ & _ & _ & _ & _ & F6 & _). rewrite F6. unfold exec_domsz, gen_domsz.
  rewrite (per_kind_exec T O SP HO _ _ i p Hp). unfold sizes, its_kind. rewrite <- (sp_kinds _ _ SP). reflexivity.
Qed.
Lemma until_zero_nth : forall l s m, (forall d, In d l -> d <> 0) -> length l <= m ->
  until_zero (map (fun i => nth (i - s) l 0) (seq s m)) = l.
Proof.
  induction l as [|d l IH]; intros s m P L.
  - destruct m as [|m]; cbn [seq map until_zero]; auto. rewrite Nat.sub_diag. reflexivity.
  - destruct m as [|m]; [cbn in L; lia|]. cbn [seq map until_zero length] in *. rewrite Nat.sub_diag. cbn [nth].
    destruct (Nat.eqb_spec d 0) as [X|X]; [exfalso; apply (P d); cbn; auto|]. f_equal.
    assert (X2 : forall d, In d l -> d <> 0) by (intros d' I; apply P; cbn; auto).
    transitivity (until_zero (map (fun i => nth (i - S s) l 0) (seq (S s) m))); [|apply IH; [exact X2|lia]].
    f_equal. apply map_ext_in. intros i I. apply in_seq in I.
    replace (i - s) with (S (i - S s)) by lia. reflexivity.
Qed.
Lemma doms_eq : forall split i p, nth_error (pcs O) i = Some p -> UdpModel.doms (iden_of F split i) = sizes (its_kind O p).
Proof.
  intros sp i p Hp. unfold iden_of. cbn [UdpModel.doms].
  transitivity (until_zero (map (fun m => nth (m - 0) (sizes (its_kind O p)) 0) (seq 0 (f_nvariables F)))).
  - f_equal. apply map_ext. intros m. rewrite Nat.sub_0_r. apply domsz_eq. auto.
  - apply until_zero_nth.
    + intros d I. unfold sizes in I. apply in_map_iff in I. destruct I as (a & <- & I). pose proof (dom_pos O HO i p Hp a I) as X.
      change (nth a (accs (its_kind O p)) acc0) with (acc (kind_of O p) a). lia.
    + destruct (fields T O fl lw actions F GEN) as (-> & _). pose proof (screen_max O i p Hp) as M. unfold screen in M. unfold sizes. rewrite map_length in *. exact M.
Qed.

Lemma action_code : forall i p j q, nth_error (pcs O) i = Some p -> pattern T (p_kind p) j q -> forall x, fits (its_kind O p) x -> forall y,
  (exists rs, exec_action (f_action F) i rs x = y) <-> action_result T lw actions j q x y.
Proof.
  intros i p j q Hp P x Hx y. pose proof (pattern_memb T HT _ j q P) as Q. destruct P as (P1 & P2 & _).
  destruct (fields T O fl lw actions F GEN) as (_ & _ & _ & _ & _ & _ & _ & F8).
  destruct (per_kind_some T O SP HO _ _ _ i p F8 Hp) as (b & B1 & B2). rewrite <- P2 in B1, Q.
  rewrite <- (body_exec T HT j q P1 lw actions ACTS fl b FL Q B1 x).
  - unfold exec_action. rewrite B2. reflexivity.
  - unfold kind_of. rewrite P2, (sp_kinds _ _ SP). exact Hx.
Qed.
Lemma assume_code : forall i p j q, nth_error (pcs O) i = Some p -> pattern T (p_kind p) j q -> NoDup (p_vbls q) -> visible_assume T q ->
  forall x, fits (its_kind O p) x -> let y := exec_assume (f_assume F) i x in
  fits (its_kind O p) y /\ assumed T q y /\ (assumed T q x -> y = x) /\
  (forall m, m < length x -> ~ writes_cell O p m -> nth m y 0 = nth m x 0).
Proof.
  intros i p j q Hp P ND VIS x Hx. pose proof (pattern_memb T HT _ j q P) as Q. destruct P as (P1 & P2 & _).
  destruct (fields T O fl lw actions F GEN) as (_ & _ & _ & _ & _ & _ & F7 & _).
  destruct (per_kind_some T O SP HO _ _ _ i p F7 Hp) as (b & B1 & B2). rewrite <- P2 in B1, Q.
  assert (K : kind_of T q = its_kind O p) by (unfold kind_of, its_kind; rewrite P2, (sp_kinds _ _ SP); reflexivity).
  rewrite <- K in *.
  destruct (assume_exec T HT j q P1 ND VIS fl b ltac:(lia) Q B1 x Hx) as (A1 & A2 & A3 & A4).
  assert (E : exec_assume (f_assume F) i x = exec_assume_body b x) by (unfold exec_assume; rewrite B2; reflexivity).
  cbv zeta. rewrite E. split; auto. split; auto. split; auto. intros m L W. apply A4; auto.
  destruct (write_ck (acc (kind_of T q) (nth m (puppets (kind_of T q)) 0))) eqn:X; auto. exfalso. apply W. apply write_iff in X.
  unfold writes_cell. rewrite <- K. unfold access_at. rewrite <- K. exact X.
Qed.

(** What an action leaves alone. *)
Hypothesis STEADY : forall q v, In q (pcs T) -> In v (screen T q) -> ~ fickle T v.
Hypothesis VIS : forall q, In q (pcs T) -> visible_assume T q.
Lemma after_fit : forall j q, nth_error (pcs T) j = Some q -> forall s t, FmlaSpec.ok (vdoms T) s -> FmlaSpec.ok (vdoms T) t -> fits (kind_of T q) (cells_after T q s t).
Proof.
  intros j q Hj s t Hs Ht. rewrite after_eq. pose proof (cells_fit T HT j q Hj s Hs) as A. pose proof (cells_fit T HT j q Hj t Ht) as B.
  apply fits_iff in A. apply fits_iff in B. apply fits_iff. rewrite map_length. split; auto. intros m L.
  destruct A as (_ & A). destruct B as (_ & B). specialize (A m L). specialize (B m L). unfold cells in A, B.
  change (shown (its_kind T q)) with (puppets (kind_of T q)) in A, B.
  set (f := fun i => if write_ck (acc (kind_of T q) i) then value t q i else value s q i).
  rewrite (nth_indep _ 0 (f 0)) by (rewrite map_length; auto). rewrite map_nth.
  rewrite (nth_indep _ 0 (value s q 0)) in A by (rewrite map_length; auto). rewrite (map_nth (value s q)) in A.
  rewrite (nth_indep _ 0 (value t q 0)) in B by (rewrite map_length; auto). rewrite (map_nth (value t q)) in B.
  unfold f. destruct (write_ck _); auto.
Qed.
Lemma action_keeps : forall j q x y, nth_error (pcs T) j = Some q -> fits (kind_of T q) x -> action_result T lw actions j q x y ->
  fits (kind_of T q) y /\ forall m, m < length x -> write_ck (acc (kind_of T q) (nth m (puppets (kind_of T q)) 0)) = false -> nth m y 0 = nth m x 0.
Proof.
  intros j q x y Hj Hx (x' & (R1 & R2) & H). assert (Hq : In q (pcs T)) by (eapply nth_error_In; eauto).
  pose proof (proj1 (fits_iff T q x) Hx) as (LX & _).
  assert (EX : forall m, m < length x -> nth m x' 0 = nth m x 0).
  { intros m L. apply R2; [rewrite (screen_length T q); lia|]. apply (STEADY q); auto. apply nth_In. rewrite (screen_length T q). lia. }
  assert (CD : forall z, can_do T lw actions j q x' z -> fits (kind_of T q) z /\ forall m, m < length x -> write_ck (acc (kind_of T q) (nth m (puppets (kind_of T q)) 0)) = false -> nth m z 0 = nth m x 0).
  { intros z (a & s & t & A1 & A2 & A3 & A4 & A5 & A6 & A7). subst z. split; [apply (after_fit j); auto|]. intros m L W. rewrite <- EX by auto. rewrite <- A6.
    rewrite after_eq. unfold cells. change (shown (its_kind T q)) with (puppets (kind_of T q)).
    set (f := fun i => if write_ck (acc (kind_of T q) i) then value t q i else value s q i).
    rewrite (nth_indep _ 0 (f 0)) by (rewrite map_length; lia). rewrite map_nth.
    rewrite (nth_indep (map (value s q) (puppets (kind_of T q))) 0 (value s q 0)) by (rewrite map_length; lia). rewrite (map_nth (value s q)). unfold f. rewrite W. reflexivity. }
  destruct H as [(H & _)|[(H & _)|(-> & _)]]; auto.
Qed.

Hypothesis SEP : separate O.
Hypothesis SOLE : sole_writer O.
Notation n := (length (pcs O)).
Notation poc := (exec_process_of_channel (f_process_of_channel F)).
Notation voc := (exec_variable_of_channel (f_variable_of_channel F) (f_nvariables F)).
Lemma dom_cell : forall i p m v, nth_error (pcs O) i = Some p -> nth_error (screen O p) m = Some v -> m < length (sizes (its_kind O p)) /\ nth m (sizes (its_kind O p)) 0 = nth v (vdoms O) 0.
Proof.
  intros i p m v Hp E. assert (L : m < length (screen O p)) by (apply nth_error_Some; rewrite E; discriminate).
  unfold screen in L. rewrite map_length in L. split; [unfold sizes; rewrite map_length; auto|].
  unfold screen in E. rewrite nth_error_nth' with (d := vbl_at p 0) in E by (rewrite map_length; auto). rewrite map_nth in E. injection E as E. subst v.
  unfold sizes. set (f := fun i0 : nat => a_dom _). rewrite (nth_indep _ 0 (f 0)) by (rewrite map_length; auto). rewrite map_nth. unfold f.
  assert (I : In (nth m (shown (its_kind O p)) 0) (shown (its_kind O p))) by (apply nth_In; auto). apply shown_lt in I.
  destruct (no_id _ HO p _ (nth_error_In _ _ Hp) I) as (_ & X & _). rewrite X. reflexivity.
Qed.
Lemma copy_not_written : forall i p k j m, nth_error (pcs O) i = Some p -> k < n_channels F i -> j < length (link O F i k) -> m = voc i k j false ->
  m < length (screen O p) /\ ~ writes_cell O p m.
Proof.
  intros i p k j m Hp Lk Lj ->. assert (Hi : i < n) by (apply nth_error_Some; rewrite Hp; discriminate).
  destruct (back T O fl lw actions F HO GEN i k Hi Lk) as (k' & A & B & C).
  destruct (ends_agree T O fl lw actions F HO GEN i k k' j Hi Lk C Lj) as (v & (p' & P1 & P2) & _ & E). assert (p' = p) by congruence. subst p'.
  split; [apply nth_error_Some; rewrite P2; discriminate|]. intros W.
  assert (WV : writes_var O i v) by (exists p, (voc i k j false); auto).
  pose proof (owner_writes_var O HO i v WV) as WO. pose proof (SOLE _ _ _ WV WO) as D.
  destruct (link_in O F i k v Hi) as (_ & _ & _ & E2); [rewrite E; apply nth_In; auto|]. rewrite <- D in E2. symmetry in E2.
  apply (poc_self T O fl lw actions F HO GEN i k Hi) in E2. lia.
Qed.
Lemma reads_link : forall split i k j, i < n -> k < n_channels F i -> reads_pos (iden_of F split i) k j -> j < length (link O F i k).
Proof. intros sp i k j Hi Lk R. apply (read_iff T O fl lw actions F HO GEN i k j Hi Lk). apply (R j). auto. Qed.
Lemma nodup_filter_map : forall (f : gvar -> bool) l, NoDup (map g_vbl l) -> NoDup (map g_vbl (filter f l)).
Proof.
  induction l as [|g l IH]; intros H; cbn; auto. inversion H as [|x y N1 N2]; subst. destruct (f g); cbn; auto. constructor; auto.
  intros I. apply N1. apply in_map_iff in I. destruct I as (g' & E & I). apply filter_In in I. rewrite <- E. apply in_map. apply I.
Qed.

Theorem wf : forall split coin fuel,
  well_formed (mkSys (f_nprocesses F) (iden_of F split) coin (peer_of F) fuel) (n_channels F).
Proof.
  intros sp coin fu. pose proof (fields T O fl lw actions F GEN) as (F1 & _ & F3 & _).
  unfold well_formed. cbn [nproc node peer]. rewrite F3.
  split; [|split; [|split; [|split; [|split]]]].
  - intros i k Hi Lk. apply (peer_back T O fl lw actions F HO GEN i k Hi Lk).
  - reflexivity.
  - intros i Hi. destruct (pc_at O HO i Hi) as (p & Hp). rewrite (doms_eq sp i p Hp). cbn [nvbls iden_of]. rewrite F1.
    pose proof (screen_max O i p Hp) as M. unfold screen in M. unfold sizes. rewrite map_length in *. exact M.
  - intros i k j Hi Lk R. pose proof (reads_link sp i k j Hi Lk R) as J. destruct (pc_at O HO i Hi) as (p & Hp).
    destruct (back T O fl lw actions F HO GEN i k Hi Lk) as (k' & A & B & C).
    destruct (ends_agree T O fl lw actions F HO GEN i k k' j Hi Lk C J) as (v & (p' & P1 & P2) & (q' & Q1 & Q2) & E). assert (p' = p) by congruence. subst p'.
    rewrite C. cbn [nvbls vbl_of iden_of]. split; [pose proof (link_short T O fl lw actions F HO GEN i k Hi); cbn; lia|].
    rewrite (doms_eq sp i p Hp). destruct (dom_cell i p _ v Hp P2) as (D1 & D2). split; [exact D1|]. split.
    + intros j' L'. cbn [vbl_of nvbls iden_of]. apply (write_iff2 T O fl lw actions F HO GEN i k k' j' Hi Lk C). lia.
    + rewrite (doms_eq sp _ q' Q1). destruct (dom_cell _ q' _ v Q1 Q2) as (_ & D3). cbn [vbl_of iden_of]. congruence.
  - intros i k j k' j' Hi Lk Lk' R R' E. pose proof (reads_link sp i k j Hi Lk R) as J. pose proof (reads_link sp i k' j' Hi Lk' R') as J'.
    cbn [vbl_of iden_of] in E. destruct (pc_at O HO i Hi) as (p & Hp).
    destruct (back T O fl lw actions F HO GEN i k Hi Lk) as (k1 & _ & _ & C).
    destruct (ends_agree T O fl lw actions F HO GEN i k k1 j Hi Lk C J) as (v & (p1 & P1 & P2) & _ & V). assert (p1 = p) by congruence. subst p1.
    destruct (back T O fl lw actions F HO GEN i k' Hi Lk') as (k2 & _ & _ & C').
    destruct (ends_agree T O fl lw actions F HO GEN i k' k2 j' Hi Lk' C' J') as (v' & (p1 & P1' & P2') & _ & V'). assert (p1 = p) by congruence. subst p1.
    assert (VV : v' = v) by congruence. rewrite VV in V'. clear VV.
    destruct (link_in O F i k v Hi) as (_ & _ & _ & O1); [rewrite V; apply nth_In; auto|].
    destruct (link_in O F i k' v Hi) as (_ & _ & _ & O2); [rewrite V'; apply nth_In; auto|].
    assert (K : k = k') by (apply (poc_inj T O fl lw actions F HO GEN i); auto; congruence). subst k'. split; auto.
    assert (ND : NoDup (link O F i k)).
    { unfold link. apply nodup_filter_map. rewrite (vars_eq O i p Hp), screen_vars. apply SEP. eapply nth_error_In; eauto. }
    rewrite NoDup_nth in ND. apply (ND j j'); auto. rewrite <- V, <- V'. reflexivity.
  - intros i x Hi Hx. destruct (pc_at O HO i Hi) as (p & Hp). assert (Ip : In p (pcs O)) by (eapply nth_error_In; eauto).
    destruct (used_pattern p Ip) as (j0 & q & P & ND & K). pose proof P as (P1 & P2 & _). assert (Iq : In q (pcs T)) by (eapply nth_error_In; eauto).
    unfold in_domain in *. rewrite (doms_eq sp i p Hp) in *. cbn [assume_assign action_assign vbl_of iden_of].
    change (fits (its_kind O p) x) in Hx.
    destruct (assume_code i p j0 q Hp P ND (VIS q Iq) x Hx) as (A1 & _ & _ & A4). split; [exact A1|].
    assert (LX : length x = length (screen O p)).
    { pose proof (proj1 (fits_iff O p x) Hx) as (X & _). rewrite X, (screen_length O p). reflexivity. }
    assert (ACT : forall c, fits (its_kind O p) (exec_action (f_action F) i (sp c) x) /\
       forall m, m < length x -> ~ writes_cell O p m -> nth m (exec_action (f_action F) i (sp c) x) 0 = nth m x 0).
    { intros c. assert (R : action_result T lw actions j0 q x (exec_action (f_action F) i (sp c) x)) by (apply (action_code i p j0 q Hp P x Hx); eauto).
      rewrite <- K in Hx. destruct (action_keeps j0 q x _ P1 Hx R) as (B1 & B2). rewrite K in B1. split; auto. intros m L W. apply B2; auto.
      rewrite K. destruct (write_ck (acc (its_kind O p) (nth m (puppets (its_kind O p)) 0))) eqn:X; auto. exfalso. apply W. apply (writes_iff O p m); [lia|exact X]. }
    split; [intros c; apply ACT|]. intros k j Lk R. pose proof (reads_link sp i k j Hi Lk R) as J.
    destruct (copy_not_written i p k j _ Hp Lk J eq_refl) as (C1 & C2). split; [apply A4; auto; lia|]. intros c. apply ACT; auto. lia.
Qed.
End File.
