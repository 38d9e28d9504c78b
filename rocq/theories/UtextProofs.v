(** The protocol file of a ring protocol. *)
From Coq Require Import String Ascii List Arith Bool ZArith Lia.
From Verif Require Import FinLib ParseModel AccessModel PrintModel.
From Verif Require Import FmlaModel FmlaSpec FmlaProofs IntModel ExprModel ExprSpec ActModel NetModel CmdModel CmdSpec CmdProps UniModel UniSpec WangSpec UtextModel.
Import ListNotations.
Local Open Scope string_scope.
Local Open Scope list_scope.
Local Open Scope nat_scope.

Definition act_tree (act : UniAct) : action :=
  let '(a, b, c) := act in
  mkAction false (SAnd (SCmp CEq (SAref "x" (SBin SubOp (SName "i") (SNat 1))) (SNat a)) (SCmp CEq (SAref "x" (SName "i")) (SNat b)))
    [ASet "x" (SName "i") (Some (SNat c))].
Lemma act_read : forall act, read_action [] (act_text act) = Some (act_tree act).
Proof. intros ((a & b) & c). reflexivity. Qed.

Lemma nth_repeat_lt' : forall k n (x : nat), k < n -> nth k (repeat x n) 0 = x.
Proof. induction k as [|k IH]; intros [|n] x L; cbn; try lia; auto. apply IH. lia. Qed.

Section Ring.
Variables n M : nat.
Hypothesis N1 : 1 <= n.
Hypothesis M1 : 1 <= M.
Variable texts : list (list tok).
Definition decls_toks : list tok :=
  [TWord "read:"; TId "x"; TLb; TId "i"; TMinus; TNat 1; TRb; TSemi; TWord "write:"; TId "x"; TLb; TId "i"; TRb; TSemi; TWord "puppet:"].
Definition pt : prot_text := mkProtText M decls_toks texts.
Definition slots2 : list slot :=
  [mkSlot ReadAccess "x" (SBin SubOp (SName "i") (SNat 1)) (SBin SubOp (SName "i") (SNat 1)); mkSlot WriteAccess "x" (SName "i") (SName "i")].
Lemma slots_read : all_slots (fst (read_vbls [] decls_toks)) = Some slots2.
Proof. reflexivity. Qed.
Definition K2 : pcsymm :=
  {| accs := [{| a_type := ReadAccess; a_role := Direct; a_dom := M |}; {| a_type := WriteAccess; a_role := Direct; a_dom := M |}]; symms := [] |}.
Lemma kind_read : {| accs := map (slot_access (prot_doms n pt) (prot_roles n) (prot_file n pt)) slots2; symms := [] |} = K2.
Proof. unfold prot_doms, prot_roles, prot_file, pt. cbn [pt_domsz]. destruct n as [|n']; [lia|]. reflexivity. Qed.

Definition before (i : nat) : nat := (i + n - 1) mod n.
Lemma before_pred : forall i, i < n -> before i = pred_of n i.
Proof.
  intros i I. unfold before, pred_of. destruct i as [|i]; [cbn [Nat.eqb]|replace (S i =? 0) with false by reflexivity].
  - rewrite Nat.mod_small; lia.
  - replace (S i + n - 1) with (i + 1 * n) by lia. rewrite Nat.mod_add, Nat.mod_small by lia. lia.
Qed.
Lemma before_lt : forall i, before i < n. Proof. intros i. apply Nat.mod_upper_bound. lia. Qed.
Lemma umod_before : forall i, i < n -> Z.to_nat ((Z.of_nat i - 1) mod Z.of_nat n) = before i.
Proof.
  intros i I. unfold before. rewrite <- (Nat2Z.id ((i + n - 1) mod n)). f_equal. rewrite Nat2Z.inj_mod.
  replace (Z.of_nat (i + n - 1)) with ((Z.of_nat i - 1) + 1 * Z.of_nat n)%Z by lia. rewrite Z_mod_plus_full. reflexivity.
Qed.
Lemma umod_own : forall i, i < n -> Z.to_nat (Z.of_nat i mod Z.of_nat n) = i.
Proof. intros i I. rewrite Z.mod_small by lia. apply Nat2Z.id. Qed.
Lemma member_before : forall i, i < n -> member (seq 0 n) (Z.of_nat i - 1) = Some (before i).
Proof.
  intros i I. unfold member. rewrite seq_length, umod_before by auto. rewrite (nth_error_nth' _ 0) by (rewrite seq_length; apply before_lt).
  rewrite seq_nth by apply before_lt. reflexivity.
Qed.
Lemma member_own : forall i, i < n -> member (seq 0 n) (Z.of_nat i) = Some i.
Proof.
  intros i I. unfold member. rewrite seq_length, umod_own by auto. rewrite (nth_error_nth' _ 0) by (rewrite seq_length; auto). rewrite seq_nth by auto. reflexivity.
Qed.

Lemma all_parsed_map : forall A B (f : A -> option B) (g : A -> B) l, (forall x, In x l -> f x = Some (g x)) -> all_parsed (map f l) = Some (map g l).
Proof.
  intros A B f g. induction l as [|x l IH]; intros H; [reflexivity|]. cbn [map all_parsed]. rewrite (H x) by (left; auto). rewrite IH; [reflexivity|].
  intros y Y. apply H. right. auto.
Qed.
Lemma accesses_read : add_accesses (prot_doms n pt) (prot_file n pt) "i" [] [] (map (fun i => mkDraft i (Z.of_nat i) []) (seq 0 n)) slots2 =
  Some (map (fun i => mkDraft i (Z.of_nat i) [before i; i]) (seq 0 n)).
Proof.
  unfold add_accesses, slots2. cbn [fold_left].
  assert (S1 : forall ms (g : draft -> draft) sl, assoc (sl_array sl) (f_arrays (prot_file n pt)) <> None -> (forall d, In d ms -> option_map (fun v => mkDraft (d_number d) (d_index d) (d_vbls d ++ [v]))
      (slot_vbl (prot_doms n pt) (prot_file n pt) "i" [] [] d sl) = Some (g d)) ->
      add_access (prot_doms n pt) (prot_file n pt) "i" [] [] ms sl = Some (map g ms)).
  { intros ms g sl K H. unfold add_access. destruct (assoc (sl_array sl) (f_arrays (prot_file n pt))); [|congruence]. apply all_parsed_map. exact H. }
  rewrite (S1 _ (fun d => mkDraft (d_number d) (d_index d) [before (d_number d)])).
  - rewrite map_map. cbn [d_number d_index d_vbls].
    rewrite (S1 _ (fun d => mkDraft (d_number d) (d_index d) [before (d_number d); d_number d])).
    + rewrite map_map. reflexivity.
    + cbn. discriminate.
    + intros d D. apply in_map_iff in D. destruct D as (i & <- & I). apply in_seq in I. unfold slot_vbl. cbn [d_number d_index d_vbls sl_index sl_array]. cbn -[umod_int seq nth_error].
      unfold umod_int. fold (member (seq 0 n) (Z.of_nat i)). rewrite member_own by lia. reflexivity.
  - cbn. discriminate.
  - intros d D. apply in_map_iff in D. destruct D as (i & <- & I). apply in_seq in I. unfold slot_vbl. cbn [d_number d_index d_vbls sl_index sl_array].
    cbn -[umod_int seq nth_error Z.sub]. unfold umod_int. change (seq 0 1) with [0]. cbn -[seq nth_error Z.sub]. fold (member (seq 0 n) (Z.of_nat i - 1)). rewrite member_before by lia. reflexivity.
Qed.

Definition mbs0 : list membr := map (fun i => mkMembr (plain_process [before i; i]) i (Z.of_nat i)) (seq 0 n).
Definition N2 : network := prot_net n pt K2 (map m_pc mbs0).
(** What an action that has been added leaves of a process. *)
Definition shape (mb : membr) : nat * Z * nat * list nat := (m_number mb, m_index mb, p_kind (m_pc mb), p_vbls (m_pc mb)).
Definition shaped (mbs : list membr) : Prop := map shape mbs = map (fun i => (i, Z.of_nat i, 0, [before i; i])) (seq 0 n).

Lemma vdoms2 : vdoms N2 = repeat M n. Proof. reflexivity. Qed.
Lemma len2 : length (vdoms N2) = n. Proof. rewrite vdoms2. apply repeat_length. Qed.
Lemma inh2 : inhabited (vdoms N2).
Proof. apply Forall_forall. intros d D. rewrite vdoms2 in D. apply repeat_spec in D. lia. Qed.
Lemma random2 : random_vbls N2 = [].
Proof.
  assert (X : forall ps l, flat_map (fun p => map (rvbl p) (filter (fun i => random_read_ck (acc (kind_of (prot_net n pt K2 ps) p) i)) (seq 0 (nr (kind_of (prot_net n pt K2 ps) p)))))
    (map m_pc (map (fun i => mkMembr (plain_process [before i; i]) i (Z.of_nat i)) l)) = []).
  { intros ps. induction l as [|i l IH]; [reflexivity|]. cbn [map flat_map]. rewrite IH. reflexivity. }
  exact (X (map m_pc mbs0) (seq 0 n)).
Qed.
Lemma shaped_in : forall mbs mb, shaped mbs -> In mb mbs -> exists i, i < n /\ m_number mb = i /\ m_index mb = Z.of_nat i /\ p_kind (m_pc mb) = 0 /\ p_vbls (m_pc mb) = [before i; i].
Proof.
  intros mbs mb SH IN. assert (X : In (shape mb) (map shape mbs)) by (apply in_map; auto). rewrite SH in X. apply in_map_iff in X. destruct X as (i & E & I). apply in_seq in I.
  unfold shape in E. injection E as E1 E2 E3 E4. exists i. repeat split; auto. lia.
Qed.
Lemma shaped_has : forall mbs i, shaped mbs -> i < n -> exists mb, In mb mbs /\ m_number mb = i /\ m_index mb = Z.of_nat i /\ p_kind (m_pc mb) = 0 /\ p_vbls (m_pc mb) = [before i; i].
Proof.
  intros mbs i SH I. assert (X : In (i, Z.of_nat i, 0, [before i; i]) (map shape mbs)).
  { rewrite SH. apply in_map_iff. exists i. split; auto. apply in_seq. lia. }
  apply in_map_iff in X. destruct X as (mb & E & IN). unfold shape in E. injection E as E1 E2 E3 E4. exists mb. auto.
Qed.

Section One.
Variable mb : membr.
Variable i : nat.
Hypothesis I : i < n.
Hypothesis HI : m_index mb = Z.of_nat i.
Hypothesis HK : p_kind (m_pc mb) = 0.
Hypothesis HV : p_vbls (m_pc mb) = [before i; i].
Notation p := (m_pc mb).
Definition G2 : scope := mkScope [] [] [("N", [Z.of_nat n]); ("M", [Z.of_nat M])] [("x", seq 0 n)] [].
Lemma kind2 : kind_of N2 p = K2. Proof. unfold kind_of. rewrite HK. reflexivity. Qed.
Lemma own2 : own_wvbls N2 p = [i].
Proof. unfold own_wvbls, wvbl, rvbl. rewrite kind2, HV. reflexivity. Qed.
Lemma written2 : written N2 p = [i].
Proof. unfold written. rewrite random2, app_nil_r. apply own2. Qed.
Lemma proper2 : proper_process N2 p.
Proof.
  constructor.
  - rewrite kind2, HV. reflexivity.
  - rewrite HV. unfold wf_ids. rewrite len2. pose proof (before_lt i). repeat constructor; auto.
  - rewrite own2. constructor; [intros []|constructor].
Qed.
Lemma declares2 : declares (vdoms N2) (prot_file n pt) (Some (use_of [] [] mb)) G2.
Proof.
  constructor; cbn [f_consts f_arrays f_preds prot_file g_consts g_arrays g_preds s_lets s_preds G2 use_of u_lets u_preds u_idx]; auto.
  - intros x l. cbn [assoc]. destruct (String.eqb x "N"); [intros E; injection E as <-; discriminate|]. destruct (String.eqb x "M"); [intros E; injection E as <-; discriminate|]. discriminate.
  - intros x l. cbn [assoc]. destruct (String.eqb x "x"); [|discriminate]. intros E. injection E as <-. split; [destruct n; [lia|discriminate]|].
    apply Forall_forall. intros v V. apply in_seq in V. rewrite len2. lia.
  - constructor.
  - constructor.
  - constructor.
  - intros x H. exfalso. apply H. reflexivity.
  - intros x. cbn [assoc]. destruct (String.eqb_spec x "x") as [->|]; [reflexivity|]. intros H. exfalso. apply H. reflexivity.
Qed.
Variable act : UniAct.
Lemma fresh2 : fresh_command ["i"] (act_tree act).
Proof.
  destruct act as ((a & b) & c). split; [cbn; auto|]. intros x j e [E|[]]. injection E as <- <- <-. split; [exact Logic.I|]. intros e' E. injection E as <-. exact Logic.I.
Qed.
Lemma last2 : any_last (a_assigns (act_tree act)).
Proof. destruct act as ((a & b) & c). intros l1 l2 E. destruct l1 as [|u [|]]; discriminate. Qed.
Lemma cell_own : forall s, cell G2 [("i", Z.of_nat i)] "x" (SName "i") s = Some i.
Proof. intros s. unfold cell. cbn [value_of int_named assoc g_arrays G2]. change (String.eqb "i" "i") with true. change (String.eqb "x" "x") with true. cbv iota. apply member_own. auto. Qed.
Lemma value_before : forall s, value_of G2 [("i", Z.of_nat i)] (SAref "x" (SBin SubOp (SName "i") (SNat 1))) s = Some (Z.of_nat (nth (before i) s 0)).
Proof.
  intros s. change (match member (seq 0 n) (Z.of_nat i - 1) with Some v => Some (Z.of_nat (nth v s 0)) | None => None end = Some (Z.of_nat (nth (before i) s 0))).
  rewrite member_before by auto. reflexivity.
Qed.
Lemma value_own : forall s, value_of G2 [("i", Z.of_nat i)] (SAref "x" (SName "i")) s = Some (Z.of_nat (nth i s 0)).
Proof.
  intros s. change (match member (seq 0 n) (Z.of_nat i) with Some v => Some (Z.of_nat (nth v s 0)) | None => None end = Some (Z.of_nat (nth i s 0))).
  rewrite member_own by auto. reflexivity.
Qed.
Lemma total2 : total_action N2 p G2 [("i", m_index mb)] (act_tree act).
Proof.
  destruct act as ((a & b) & c). rewrite HI. cbn [act_tree]. split.
  - cbn [a_guard total_b total_i]. cbn [assoc g_arrays G2]. change (String.eqb "x" "x") with true. cbv iota.
    assert (NM : int_named G2 [("i", Z.of_nat i)] "i" <> None) by (cbn; discriminate).
    split; [split; [|exact Logic.I]|split; [|exact Logic.I]]; (split; [|split; [reflexivity|]]).
    + split; [exact NM|]. split; [exact Logic.I|]. intros s x y _ _ _. discriminate.
    + intros s k v _ E1 E2. change (Some (Z.of_nat i - 1)%Z = Some k) in E1. injection E1 as <-. rewrite member_before in E2 by auto. injection E2 as <-. rewrite HV. left. reflexivity.
    + exact NM.
    + intros s k v _ E1 E2. change (Some (Z.of_nat i) = Some k) in E1. injection E1 as <-. rewrite member_own in E2 by auto. injection E2 as <-. rewrite HV. right. left. reflexivity.
  - intros x j e [E|[]]. injection E as <- <- <-. split; [cbn; discriminate|]. split; [reflexivity|]. split.
    + exists (seq 0 n). split; [reflexivity|]. intros s k v _ E1 E2. change (Some (Z.of_nat i) = Some k) in E1. injection E1 as <-. rewrite member_own in E2 by auto. injection E2 as <-.
      rewrite HV, own2. split; [right; left|left]; reflexivity.
    + intros e' E. injection E as <-. exact Logic.I.
Qed.

(** The step of the process is the one of the action. *)
Lemma step2 : forall s t, ok (vdoms N2) s -> ok (vdoms N2) t -> (let '(a, b, c) := act in c < M) ->
  (action_step N2 p G2 [("i", m_index mb)] true (act_tree act) Puppet s t /\ agree_off (vdoms N2) (written N2 p) t s <->
   let '(a, b, c) := act in nth (before i) s 0 = a /\ nth i s 0 = b /\ nth i t 0 = c /\ forall k, k < n -> k <> i -> nth k t 0 = nth k s 0).
Proof.
  intros s t S T. destruct act as ((a & b) & c). intros C. rewrite HI, written2.
  assert (TR : truth G2 [("i", Z.of_nat i)] (a_guard (act_tree (a, b, c))) s = Some true <-> nth (before i) s 0 = a /\ nth i s 0 = b).
  { assert (CM : forall e k, truth G2 [("i", Z.of_nat i)] (SCmp CEq e (SNat k)) s =
        match value_of G2 [("i", Z.of_nat i)] e s with Some x => Some (compares CEq x (Z.of_nat k)) | None => None end) by reflexivity.
    assert (U : truth G2 [("i", Z.of_nat i)] (SCmp CEq (SAref "x" (SBin SubOp (SName "i") (SNat 1))) (SNat a)) s = Some (nth (before i) s 0 =? a)).
    { rewrite CM, value_before. f_equal. cbn [compares]. destruct (Z.eq_dec _ _) as [E|E]; destruct (Nat.eqb_spec (nth (before i) s 0) a); auto; lia. }
    assert (V : truth G2 [("i", Z.of_nat i)] (SCmp CEq (SAref "x" (SName "i")) (SNat b)) s = Some (nth i s 0 =? b)).
    { rewrite CM, value_own. f_equal. cbn [compares]. destruct (Z.eq_dec _ _) as [E|E]; destruct (Nat.eqb_spec (nth i s 0) b); auto; lia. }
    assert (W : truth G2 [("i", Z.of_nat i)] (a_guard (act_tree (a, b, c))) s =
      match truth G2 [("i", Z.of_nat i)] (SCmp CEq (SAref "x" (SBin SubOp (SName "i") (SNat 1))) (SNat a)) s with
      | Some true => truth G2 [("i", Z.of_nat i)] (SCmp CEq (SAref "x" (SName "i")) (SNat b)) s | o => o end) by reflexivity.
    rewrite W, U, V. destruct (Nat.eqb_spec (nth (before i) s 0) a), (Nat.eqb_spec (nth i s 0) b); split; try discriminate; try tauto; intros; auto. }
  assert (DI : nth i (vdoms N2) 0 = M) by (rewrite vdoms2; apply nth_repeat_lt'; auto).
  assert (DR : rev (filter (drawn N2) (p_vbls p)) = []).
  { assert (X : forall l, filter (drawn N2) l = []) by (induction l as [|v l IH]; cbn [filter]; auto; unfold drawn at 1; rewrite random2; auto). rewrite X. reflexivity. }
  split.
  - intros ([RAW _ _] & AG). destruct RAW as (s0 & _ & RD & ST). rewrite DR in RD. cbn in RD. subst s0. destruct ST as [GU SET _].
    apply TR in GU. destruct GU as (GA & GB). split; auto. split; auto. split.
    + destruct (SET "x" (SName "i") (SNat c) i (or_introl eq_refl) (cell_own s)) as (z & Z1 & Z2). cbn in Z1. injection Z1 as <-. rewrite DI in Z2.
      rewrite Z.mod_small in Z2 by lia. lia.
    + intros k KL KN. apply AG; [rewrite len2; auto|]. intros [->|[]]. auto.
  - intros (GA & GB & TC & RE). split.
    + constructor.
      * exists s. split; auto. split; [rewrite DR; reflexivity|]. constructor.
        -- apply TR. auto.
        -- intros x j e v [E|[]] CE. injection E as <- <- <-. rewrite cell_own in CE. injection CE as <-. exists (Z.of_nat c). split; [reflexivity|].
           rewrite DI, Z.mod_small by lia. lia.
        -- intros _ v V NA. exfalso. apply NA. exists "x", (SName "i"), (Some (SNat c)). split; [left; reflexivity|]. rewrite cell_own. f_equal.
           unfold kept in V. rewrite kind2 in V. apply in_map_iff in V. destruct V as (w & <- & W). unfold wvbl, rvbl. rewrite kind2, HV.
           apply filter_In in W. destruct W as (W & _). apply in_seq in W. change (nw K2) with 1 in W. assert (w = 0) by lia. subst w. reflexivity.
      * discriminate.
      * intros (w & W & SW & _). exfalso. rewrite kind2 in W, SW. change (nw K2) with 1 in W. assert (w = 0) by lia. subst w. discriminate.
    + intros k KL KN. rewrite len2 in KL. apply RE; auto. intros ->. apply KN. left. reflexivity.
Qed.
End One.

Lemma ok2 : forall s, ok (vdoms N2) s -> length s = n.
Proof. intros s S. rewrite (ok_length _ s S). apply len2. Qed.
Lemma ring_step_nth : forall (P : protocol) s t, length s = n -> length t = n ->
  (ring_step P s t <-> exists i a b c, i < n /\ P a b c /\ nth (before i) s 0 = a /\ nth i s 0 = b /\ nth i t 0 = c /\ forall k, k < n -> k <> i -> nth k t 0 = nth k s 0).
Proof.
  intros P s t LS LT. split.
  - intros (i & a & b & c & E1 & E2 & PA & ->). assert (IL : i < n) by (rewrite <- LS; apply nth_error_Some; congruence). exists i, a, b, c.
    rewrite LS in E1. rewrite before_pred by auto. split; auto. split; auto. split; [apply nth_error_nth; auto|]. split; [apply nth_error_nth; auto|].
    split.
    + rewrite app_nth2; rewrite firstn_length; [|lia]. replace (i - Nat.min i (length s)) with 0 by lia. reflexivity.
    + intros k KL KN. destruct (lt_dec k i) as [L|L].
      * rewrite app_nth1 by (rewrite firstn_length; lia). rewrite <- (firstn_skipn i s) at 2. rewrite app_nth1 by (rewrite firstn_length; lia). reflexivity.
      * rewrite app_nth2 by (rewrite firstn_length; lia). rewrite firstn_length. replace (k - Nat.min i (length s)) with (S (k - S i)) by lia. cbn [nth].
        rewrite <- (firstn_skipn (S i) s) at 2. rewrite app_nth2 by (rewrite firstn_length; lia). rewrite firstn_length. f_equal. lia.
  - intros (i & a & b & c & IL & PA & E1 & E2 & E3 & E4). exists i, a, b, c. rewrite LS, <- before_pred by auto.
    split; [rewrite <- E1; apply nth_error_nth'; rewrite LS; apply before_lt|]. split; [rewrite <- E2; apply nth_error_nth'; lia|]. split; auto.
    apply (nth_ext _ _ 0 0).
    + rewrite app_length, firstn_length. cbn [length]. rewrite skipn_length. lia.
    + intros k KL. destruct (lt_dec k i) as [L|L].
      * rewrite app_nth1 by (rewrite firstn_length; lia). rewrite E4 by lia. rewrite <- (firstn_skipn i s) at 1. rewrite app_nth1 by (rewrite firstn_length; lia). reflexivity.
      * rewrite app_nth2 by (rewrite firstn_length; lia). rewrite firstn_length. destruct (Nat.eq_dec k i) as [->|NE].
        -- replace (i - Nat.min i (length s)) with 0 by lia. exact E3.
        -- replace (k - Nat.min i (length s)) with (S (k - S i)) by lia. cbn [nth]. rewrite E4 by lia.
           rewrite <- (firstn_skipn (S i) s) at 1. rewrite app_nth2 by (rewrite firstn_length; lia). rewrite firstn_length. f_equal. lia.
Qed.

Definition below (act : UniAct) : Prop := let '(a, b, c) := act in a < M /\ b < M /\ c < M.
Lemma puppets_read : forall acts mbs T, Forall below acts -> shaped mbs -> Forall (grown_so_far N2) mbs ->
  trans_fmla (vdoms N2) (t_direct T) -> trans_fmla (vdoms N2) (t_shadow T) ->
  exists mbs' T', read_puppets N2 (prot_file n pt) "i" [] [] [] (map act_text acts) mbs T = Some (mbs', T') /\ shaped mbs' /\
    trans_fmla (vdoms N2) (t_direct T') /\
    (forall s t, ok (vdoms N2) s -> ok (vdoms N2) t -> (FmlaSpec.steps (t_shadow T') s t <-> FmlaSpec.steps (t_shadow T) s t)) /\
    forall s t, ok (vdoms N2) s -> ok (vdoms N2) t ->
      (FmlaSpec.steps (t_direct T') s t <-> FmlaSpec.steps (t_direct T) s t \/ ring_step (protocol_of acts) s t).
Proof.
  induction acts as [|act acts IH]; intros mbs T BE SH GR TD TS.
  - exists mbs, T. split; [reflexivity|]. split; auto. split; auto. split; [tauto|]. intros s t S1 T1. split; auto. intros [H|(i & a & b & c & _ & _ & H & _)]; [auto|destruct H].
  - inversion BE as [|? ? B1 BE']; subst. cbn [map read_puppets]. rewrite act_read.
    assert (RK : wf_ids (vdoms N2) (random_vbls N2)) by (rewrite random2; constructor).
    assert (PR : Forall (fun mb => proper_process N2 (m_pc mb)) mbs).
    { apply Forall_forall. intros mb IN. destruct (shaped_in _ _ SH IN) as (i & I & _ & _ & K1 & K3). eapply proper2; eauto. }
    assert (DC : Forall (fun mb => declares (vdoms N2) (prot_file n pt) (Some (use_of [] [] mb)) G2) mbs).
    { apply Forall_forall. intros mb IN. destruct (shaped_in _ _ SH IN) as (i & I & _ & _ & K1 & K3). eapply declares2; eauto. }
    destruct (C69_added N2 (prot_file n pt) "i" [] [] (fun _ => G2) mbs Puppet (act_tree act) T inh2 RK PR DC (fresh2 act) (last2 act) TD TS GR) as (OK & RES).
    destruct (add_action N2 (prot_file n pt) "i" [] [] mbs Puppet (act_tree act) T) as [(mbs1, T1)|] eqn:E.
    2: { exfalso. apply OK; [|reflexivity]. intros mb IN. destruct (shaped_in _ _ SH IN) as (i & I & _ & K0 & K1 & K3). eapply total2; eauto. }
    destruct (RES mbs1 T1 eq_refl) as (F2 & GR1 & TD1 & TS1 & ST).
    assert (SH1 : shaped mbs1).
    { unfold shaped in *. rewrite <- SH. clear - F2. induction F2 as [|m m' l l' G F2 IH]; [reflexivity|]. cbn [map]. rewrite IH. f_equal. unfold shape.
      rewrite (mg_number _ _ _ _ _ G), (mg_index _ _ _ _ _ G), (mg_kind _ _ _ _ _ G), (mg_vbls _ _ _ _ _ G). reflexivity. }
    destruct (IH mbs1 T1 BE' SH1 GR1 TD1 TS1) as (mbs' & T' & E' & SH' & TD' & SS & ST').
    exists mbs', T'. split; [exact E'|]. split; auto. split; auto. split.
    { intros s t S1 T2. rewrite SS by auto. rewrite (proj2 (ST s t S1 T2)). split; [intros [H|(H & _)]; [auto|congruence]|auto]. }
    intros s t S1 T2. rewrite ST' by auto. rewrite (proj1 (ST s t S1 T2)).
    pose proof (ok2 s S1) as LS. pose proof (ok2 t T2) as LT.
    rewrite !ring_step_nth by auto. destruct act as ((a & b) & c). destruct B1 as (BA & BB & BC). split.
    + intros [[H|(_ & mb & IN & A1 & A2)]|H]; [auto| |].
      * right. destruct (shaped_in _ _ SH IN) as (i & I & K & K0 & K1 & K3).
        destruct (proj1 (step2 mb i I K0 K1 K3 (a, b, c) s t S1 T2 BC) (conj A1 A2)) as (H1 & H2 & H3 & H4).
        exists i, a, b, c. split; auto. split; [left; reflexivity|]. auto.
      * right. destruct H as (i & a' & b' & c' & I & P & H). exists i, a', b', c'. split; auto. split; [right; auto|auto].
    + intros [H|(i & a' & b' & c' & I & P & H)]; [auto|]. destruct P as [P|P].
      * left. right. split; [discriminate|]. injection P as <- <- <-. destruct (shaped_has mbs i SH I) as (mb & IN & K & K0 & K1 & K3). exists mb. split; auto.
        exact (proj2 (step2 mb i I K0 K1 K3 (a, b, c) s t S1 T2 BC) H).
      * right. exists i, a', b', c'. auto.
Qed.
End Ring.

(** The whole text *)
Lemma prot_read : forall n M acts, 1 <= n -> 1 <= M -> Forall (below M) acts ->
  exists net T, read_prot n (oput_protocon acts M) = Some (net, T) /\ vdoms net = repeat M n /\
  map p_vbls (pcs net) = map (fun i => [pred_of n i; i]) (seq 0 n) /\
  forall s t, ok (repeat M n) s -> ok (repeat M n) t -> (FmlaSpec.steps (t_direct T) s t <-> ring_step (protocol_of acts) s t).
Proof.
  intros n M acts N1 M1 BE. assert (PT : oput_protocon acts M = pt M (map act_text acts)) by (unfold oput_protocon; destruct (Nat.eqb_spec M 0); [lia|reflexivity]).
  rewrite PT. unfold read_prot. cbn [pt_decls pt]. rewrite slots_read. fold (pt M (map act_text acts)).
  rewrite (accesses_read n M N1 M1 (map act_text acts)). cbv zeta. rewrite (kind_read n M N1 M1 (map act_text acts)).
  assert (MB : map (fun d => mkMembr (plain_process (d_vbls d)) (d_number d) (d_index d)) (map (fun i => mkDraft i (Z.of_nat i) [before n i; i]) (seq 0 n)) = mbs0 n) by (rewrite map_map; reflexivity).
  rewrite MB. clear MB.
  assert (TF : trans_fmla (vdoms (N2 n M (map act_text acts))) (Cst false)) by (intros a a' i q _ _ _ _; tauto).
  destruct (puppets_read n M N1 M1 (map act_text acts) acts (mbs0 n) (mkTotals (Cst false) (Cst false)) BE) as (mbs' & T' & E & SH & TD & _ & ST); auto.
  - unfold shaped, mbs0. rewrite map_map. reflexivity.
  - apply Forall_forall. intros mb IN. unfold mbs0 in IN. apply in_map_iff in IN. destruct IN as (i & <- & _). split; exact TF.
  - match goal with |- context [read_puppets ?a ?b ?c ?d ?e ?f ?g ?h ?i] => replace (read_puppets a b c d e f g h i) with (Some (mbs', T')) by (symmetry; exact E) end. eexists _, T'. split; [reflexivity|]. split; [reflexivity|]. split.
    + cbn [pcs prot_net]. rewrite map_map. unfold shaped in SH. apply (f_equal (map snd)) in SH. rewrite !map_map in SH. cbn [snd shape] in SH. rewrite SH.
      apply map_ext_in. intros i I. apply in_seq in I. rewrite (before_pred n M N1 M1) by lia. reflexivity.
    + intros s t S T. rewrite (ST s t S T). split; [intros [H|H]; [discriminate H|auto]|auto].
Qed.
