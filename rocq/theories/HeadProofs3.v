(** The head of a process definition, and the entries of a file. *)
From Coq Require Import String List Arith Bool ZArith Lia.
From Verif Require Import FinLib Radix ParseModel AccessModel AccessSpec AccessProofs AccessProps FmlaModel FmlaSpec FmlaProofs ActModel NetModel IntModel IntSpec IntProofs ExprModel ExprSpec ExprProofs ExprProofs2 ExprProps
  CmdModel CmdSpec CmdProofs4 DeclModel DeclSpec DeclProofs DeclProofs4 HeadModel HeadSpec HeadProofs HeadProofs2.
Import ListNotations.
Local Open Scope list_scope.
Local Open Scope nat_scope.

Lemma all_parsed_f2 : forall A B (f : A -> option B) l r, all_parsed (map f l) = Some r -> Forall2 (fun a b => f a = Some b) l r.
Proof.
  intros A B f l r E. apply all_parsed_spec in E. revert r E. induction l as [|a l IH]; intros [|b r] E; try discriminate; constructor; cbn in E; injection E as E1 E2; auto.
Qed.
Lemma f2_nth : forall A B (R : A -> B -> Prop) l l', Forall2 R l l' -> forall i b, nth_error l' i = Some b -> exists a, nth_error l i = Some a /\ R a b.
Proof. intros A B R l l' F. induction F as [|a b l l' H F IH]; intros [|i] c E; cbn in *; try discriminate; [injection E as <-; eauto|eauto]. Qed.
Lemma f2_len : forall A B (R : A -> B -> Prop) l l', Forall2 R l l' -> length l = length l'.
Proof. intros A B R l l' F. induction F; cbn; auto. Qed.
Lemma nth_seq : forall n i v, nth_error (seq 0 n) i = Some v -> v = i /\ i < n.
Proof.
  intros n i v W. assert (i < n) by (rewrite <- (seq_length n 0); apply nth_error_Some; congruence). rewrite (nth_error_nth' _ 0) in W by (rewrite seq_length; auto).
  rewrite seq_nth in W by auto. injection W as <-. auto.
Qed.

Section Head.
Variables (ds : list nat) (roles : list role) (F : file) (G : scope).
Hypothesis INH : inhabited ds.
Hypothesis D : declares ds F None G.

Definition let_scope (L : list (string * list Z)) (i : nat) : scope :=
  mkScope (map (fun xl => (fst xl, nth i (snd xl) 0%Z)) L) [] (g_consts G) (g_arrays G) (g_preds G).
Definition lets_ok (n : nat) (L : list (string * list Z)) : Prop := forall x l, In (x, l) L -> length l = n /\ assoc x (g_consts G) = None.
Lemma let_declares : forall n L i, lets_ok n L -> i < n -> declares ds F (Some (mkUse L [] i [])) (let_scope L i).
Proof.
  intros n L i H LT. destruct D as [D1 D2 D3 D4 D5 D6 D7 D8 D9 D10]. constructor; cbn; auto.
  - unfold same_keys. clear - H LT. induction L as [|(x, l) ls IH]; cbn [map]; constructor; cbn.
    + split; auto. apply nth_error_nth'. destruct (H x l (or_introl eq_refl)) as (E & _). lia.
    + apply IH. intros y l' J. apply (H y). right. auto.
  - constructor.
  - intros x X. assert (K : exists l, In (x, l) L).
    { clear - X. induction L as [|(y, l) ls IH]; cbn in X; [contradiction|]. destruct (String.eqb_spec x y) as [Q|Q].
      - exists l. left. rewrite Q. auto.
      - destruct (IH X) as (l' & J). exists l'. right. auto. }
    destruct K as (l & J). apply (H x l J).
Qed.

Lemma indices_spec : forall k n zs, match kd_map k with None => True | Some (x, e) => fresh_indices [x] e end -> indices_of ds F k n = Some zs ->
  length zs = n /\ forall i z, nth_error zs i = Some z -> forall s, ok ds s -> index_says G k i s = Some z.
Proof.
  intros k n zs FR E. unfold indices_of in E. unfold index_says. destruct (kd_map k) as [(x, e)|].
  - pose proof (all_parsed_f2 _ _ _ _ _ E) as F2. split; [rewrite <- (f2_len _ _ _ _ _ F2); apply seq_length|].
    intros i z Z s S. destruct (f2_nth _ _ _ _ _ F2 i z Z) as (j & J & EV). apply nth_seq in J. destruct J as (-> & _).
    apply (eval_int_spec ds F None G [(x, Z.of_nat i)] e z INH D FR EV s S).
  - injection E as <-. split; [rewrite map_length; apply seq_length|]. intros i z Z s S. rewrite nth_error_map in Z.
    destruct (nth_error (seq 0 n) i) as [j|] eqn:J; [|discriminate]. apply nth_seq in J. destruct J as (-> & _). auto.
Qed.

Lemma lets_spec : forall idx zs l L L', Forall (fun xe => fresh_indices [idx] (snd xe) /\ assoc (fst xe) (g_consts G) = None) l ->
  lets_ok (length zs) L -> read_lets ds F idx zs L l = Some L' ->
  lets_ok (length zs) L' /\ forall i z, nth_error zs i = Some z -> forall s, ok ds s -> with_lets (let_scope L i) [(idx, z)] s l = Some (let_scope L' i).
Proof.
  intros idx zs. induction l as [|(x, e) l IH]; intros L L' FR LO E; cbn [read_lets] in E.
  - injection E as <-. split; auto.
  - destruct (add_let ds F idx zs L (x, e)) as [L1|] eqn:E1; [|discriminate]. unfold add_let in E1. cbn [fst snd] in E1. destruct (all_parsed _) as [vals|] eqn:EV; [|discriminate]. injection E1 as <-.
    inversion FR as [|? ? (FE & NC) FR']; subst. cbn [fst snd] in *. pose proof (all_parsed_f2 _ _ _ _ _ EV) as F2.
    assert (LEN : length vals = length zs) by (rewrite <- (f2_len _ _ _ _ _ F2), combine_length, seq_length; lia).
    destruct (IH (set_key x vals L) L' FR') as (LO' & W); auto.
    { intros y l' [I|I]; [injection I as <- <-; auto|apply (LO y l' I)]. }
    split; auto. intros i z Z s S. cbn [with_lets].
    destruct (nth_error vals i) as [v|] eqn:V; [|exfalso; apply nth_error_None in V; assert (nth_error zs i <> None) by congruence; apply nth_error_Some in H; lia].
    destruct (f2_nth _ _ _ _ _ F2 i v V) as ((j, z') & J & EI). apply nth_error_combine in J. destruct J as (J & Z'). apply nth_seq in J. destruct J as (-> & LT). rewrite Z in Z'. injection Z' as <-. cbn [fst snd] in EI.
    rewrite (eval_int_spec ds F _ (let_scope L i) [(idx, z)] e v INH (let_declares _ L i LO LT) FE EI s S).
    rewrite <- (W i z Z s S). unfold let_scope, set_key. cbn [map fst snd s_lets s_preds g_consts g_arrays g_preds]. rewrite (nth_error_nth _ _ 0%Z V). reflexivity.
Qed.

Lemma cell_known : forall G' b x i s v, g_arrays G' = g_arrays G -> cell G' b x i s = Some v -> v < length ds.
Proof.
  intros G' b x i s v E C. unfold cell in C. rewrite E in C. destruct (value_of G' b i s) as [k|]; [|discriminate]. destruct (assoc x (g_arrays G)) as [l|] eqn:A; [|discriminate].
  destruct (d_members _ _ _ _ D x l A) as (_ & K). unfold ExprSpec.member in C. apply nth_error_In in C. rewrite Forall_forall in K. auto.
Qed.
Lemma accessed_known : forall G' b s d t x v, g_arrays G' = g_arrays G -> In (t, x, Some v) (accessed G' b s d) -> v < length ds.
Proof.
  intros G' b s d t x v E I. destruct d as [((t', x'), i)|names vals vs]; cbn in I.
  - destruct I as [I|[]]. injection I as <- <- C. apply (cell_known G' b x' i s); auto.
  - apply in_flat_map in I. destruct I as (((t', x'), i) & _ & I). apply in_map_iff in I. destruct I as (tuple & Q & _). injection Q as <- <- C.
    apply (cell_known G' (with_links G' b names tuple s) x' i s); auto.
Qed.

(** The processes there are, up to some kinds *)
Definition known_process (ks : list pcsymm) (p : process) : Prop :=
  p_kind p < length ks /\ length (p_vbls p) = nr (nth (p_kind p) ks pc0) /\ wf_ids ds (p_vbls p).
Lemma known_app : forall ks k p, known_process ks p -> known_process (ks ++ k) p.
Proof. intros ks k p (A & B & C). split; [rewrite app_length; lia|]. rewrite app_nth1 by auto. auto. Qed.

Lemma shape_kind : forall d, f_arrays F = g_arrays G -> decl_shape ds roles F d = kind_decl ds roles (mkFile [] (g_arrays G) []) d.
Proof.
  intros d E. destruct d as [((t, x), i)|names vals vs]; cbn.
  - unfold array_access. cbn. rewrite E. auto.
  - f_equal. apply map_ext. intros r. unfold array_access. cbn. rewrite E. auto.
Qed.

Lemma head_spec : forall taken ks ps k h, (forall x, assoc x (g_consts G) <> None -> In x taken) -> plain_kind taken k ->
  Forall (known_process ks) ps -> read_head ds roles F ks ps k = Some h ->
  head_says ds roles G k h /\ (exists kind, kinds (h_net h) = ks ++ [kind]) /\
  pcs (h_net h) = ps ++ map m_pc (h_membs h) /\ Forall (known_process (kinds (h_net h))) (pcs (h_net h)) /\
  ((forall m, In m (h_membs h) -> NoDup (own_wvbls (h_net h) (m_pc m))) -> proper_head ds G h).
Proof.
  intros taken ks ps k h TK (F1 & F2 & F3 & F4) KP E. unfold read_head in E.
  destruct (eval_nat ds F None [] (kd_num k)) as [n|] eqn:EN; [|discriminate]. destruct (indices_of ds F k n) as [zs|] eqn:EZ; [|discriminate].
  destruct (read_lets ds F (kd_idx k) zs [] (kd_lets k)) as [lets|] eqn:EL; [|discriminate]. destruct (all_slots (kd_vbls k)) as [sls|] eqn:ES; [|discriminate].
  destruct (add_accesses _ _ _ _ _ _ sls) as [drafts|] eqn:EA; [|discriminate]. injection E as E.
  destruct (indices_spec k n zs F2 EZ) as (LZ & IZ).
  destruct (lets_spec (kd_idx k) zs (kd_lets k) [] lets) as (LO & WL); auto.
  { apply Forall_forall. intros xe I. rewrite Forall_forall in F3. destruct (F3 xe I) as (A & B). split; auto. destruct (assoc (fst xe) (g_consts G)) as [q|] eqn:Q; auto. exfalso. apply B, TK. congruence. }
  { intros x l []. }
  set (ms := map (fun iz => mkDraft (fst iz) (snd iz) []) (combine (seq 0 n) zs)) in *.
  assert (MS : forall i d, nth_error ms i = Some d -> exists z, nth_error zs i = Some z /\ i < n /\ d = mkDraft i z []).
  { intros i d X. unfold ms in X. rewrite nth_error_map in X. destruct (nth_error (combine (seq 0 n) zs) i) as [(j, z)|] eqn:J; [|discriminate]. injection X as <-.
    apply nth_error_combine in J. destruct J as (J & Z). apply nth_seq in J. destruct J as (-> & LT). eauto. }
  assert (LM : length ms = n) by (unfold ms; rewrite map_length, combine_length, seq_length; lia).
  assert (DM : Forall (fun d => declares ds F (Some (mkUse lets [] (d_number d) [])) (let_scope lets (d_number d))) ms).
  { apply Forall_forall. intros d I. apply In_nth_error in I. destruct I as (i & I). destruct (MS i d I) as (z & _ & LT & ->). cbn. apply (let_declares n); auto. rewrite <- LZ. auto. }
  pose proof (C72_accessed ds F (kd_idx k) lets [] (let_scope lets) (kd_vbls k) sls ms drafts INH F4 DM ES EA) as AC.
  set (kind := {| accs := map (slot_access ds roles F) sls; symms := decl_symms 0 (map (decl_shape ds roles F) (kd_vbls k)) |}) in *.
  assert (KIND : kind = declare (map (kind_decl ds roles (mkFile [] (g_arrays G) [])) (kd_vbls k))).
  { assert (EQ : map (decl_shape ds roles F) (kd_vbls k) = map (kind_decl ds roles (mkFile [] (g_arrays G) [])) (kd_vbls k)) by (apply map_ext; intros d; apply shape_kind; apply (d_arrays _ _ _ _ D)).
    unfold kind, declare. rewrite <- EQ. f_equal. rewrite (C72_kind ds roles F (kd_idx k) (kd_vbls k) sls F4 ES). unfold declare. cbn [accs]. f_equal. apply map_ext. intros d.
    destruct d as [((t, x), i)|]; reflexivity. }
  set (mbs := map (fun d => mkMembr (new_process (length ks) (d_vbls d)) (d_number d) (d_index d)) drafts) in *.
  assert (LB : length mbs = n) by (unfold mbs; rewrite map_length, <- (f2_len _ _ _ _ _ AC); auto).
  destruct (some_state ds INH) as (s0 & S0).
  assert (MB : forall i m, nth_error mbs i = Some m -> exists z vs, nth_error zs i = Some z /\ i < n /\ m = mkMembr (new_process (length ks) vs) i z /\ length vs = length sls /\ wf_ids ds vs /\
    forall s, ok ds s -> map snd (flat_map (accessed (let_scope lets i) [(kd_idx k, z)] s) (kd_vbls k)) = map Some vs).
  { intros i m X. unfold mbs in X. rewrite nth_error_map in X. destruct (nth_error drafts i) as [d'|] eqn:DD; [|discriminate]. injection X as <-.
    destruct (f2_nth _ _ _ _ _ AC i d' DD) as (d & DI & A1 & A2 & vs & A3 & A4). destruct (MS i d DI) as (z & Z & LT & ->). cbn in A1, A2, A3, A4.
    exists z, vs. split; auto. split; auto. split; [rewrite A1, A2, A3; reflexivity|]. split; [apply (A4 s0 S0)|].
    assert (EQ : forall s, ok ds s -> map snd (flat_map (accessed (let_scope lets i) [(kd_idx k, z)] s) (kd_vbls k)) = map Some vs).
    { intros s S. destruct (A4 s S) as (Q & L). rewrite Q, map_map. cbn [snd]. clear - L. revert vs L. induction sls as [|sl sls IH]; intros [|v vs] L; cbn in *; try discriminate; auto. f_equal. auto. }
    split; auto. apply Forall_forall. intros v I. assert (J : In (Some v) (map Some vs)) by (apply in_map; auto). rewrite <- (EQ s0 S0) in J.
    apply in_map_iff in J. destruct J as (((t, x), o) & Q & J). cbn in Q. subst o. apply in_flat_map in J. destruct J as (d & _ & J). apply (accessed_known (let_scope lets i) [(kd_idx k, z)] s0 d t x v); auto. }
  assert (KN : nth (length ks) (ks ++ [kind]) pc0 = kind) by (rewrite app_nth2, Nat.sub_diag; auto).
  assert (ALL : Forall (known_process (ks ++ [kind])) (ps ++ map m_pc mbs)).
  { apply Forall_app. split; [apply (Forall_impl _ (fun p => known_app ks [kind] p)); auto|]. apply Forall_forall. intros p I. apply in_map_iff in I. destruct I as (m & <- & I).
    apply In_nth_error in I. destruct I as (i & I). destruct (MB i m I) as (z & vs & _ & _ & -> & L & WF & _). unfold known_process, new_process. cbn [m_pc p_kind p_vbls]. rewrite KN. split; [rewrite app_length; cbn; lia|]. split; [|auto].
    unfold nr, kind. cbn [accs]. rewrite map_length. auto. }
  subst h. cbn [h_net h_idx h_lets h_membs kinds pcs].
  split; [|split; [eauto|split; [auto|split; [exact ALL|]]]].
  - constructor; cbn [h_net h_idx h_lets h_membs vdoms vroles]; auto.
    + intros s S. rewrite LB. unfold eval_nat in EN. destruct (eval_int ds F None [] (kd_num k)) as [q|] eqn:Q; [|discriminate]. destruct (0 <=? q)%Z eqn:PQ; [|discriminate]. injection EN as <-.
      apply Z.leb_le in PQ. rewrite Z2Nat.id by auto. apply (eval_int_spec ds F None G [] (kd_num k) q INH D F1 Q s S).
    + intros i m I. destruct (MB i m I) as (z & vs & Z & LT & -> & L & WF & EQ). constructor; auto.
      * intros s S. exact (WL i z Z s S).
      * unfold kind_of, new_process. cbn [m_pc p_kind h_net kinds]. rewrite KN. auto.
  - intros ON. constructor; cbn [h_net h_idx h_lets h_membs vdoms]; auto.
    + unfold wf_ids, random_vbls. apply Forall_forall. intros v I. apply in_flat_map in I. destruct I as (p & P & I). cbn [pcs] in P. apply in_map_iff in I. destruct I as (i & <- & I).
      apply filter_In in I. destruct I as (I & _). apply in_seq in I. rewrite Forall_forall in ALL. destruct (ALL p P) as (K1 & K2 & K3). unfold wf_ids in K3. rewrite Forall_forall in K3.
      unfold rvbl. apply K3. apply nth_In. unfold kind_of in I. cbn [kinds] in I. lia.
    + apply (list_ext_nth _ _ _ 0); [rewrite map_length, seq_length; auto|]. intros i LI. rewrite map_length in LI. rewrite seq_nth by auto. cbn.
      destruct (nth_error mbs i) as [m|] eqn:M; [|apply nth_error_None in M; lia]. rewrite (nth_error_nth (map m_number mbs) i 0 (x := m_number m)); [|rewrite nth_error_map, M; auto].
      destruct (MB i m M) as (z & vs & _ & _ & -> & _). auto.
    + intros m I. specialize (ON m I). apply In_nth_error in I. destruct I as (i & I). destruct (MB i m I) as (z & vs & Z & LT & -> & L & WF & EQ). constructor; auto.
      unfold kind_of, new_process. cbn [m_pc p_kind kinds]. rewrite KN. unfold nr, kind. cbn [accs]. rewrite map_length. auto.
    + intros m I. apply In_nth_error in I. destruct I as (i & I). destruct (MB i m I) as (z & vs & Z & LT & -> & _). cbn. eexists _, _. reflexivity.
    + intros x l I. rewrite LB, <- LZ. apply (LO x l I).
Qed.
End Head.

Section Entries.
Variables (consts : list (string * list Z)) (arrays : list (string * list nat)) (ds : list nat) (roles : list role) (taken : list string).
Hypothesis INH : inhabited ds.
Hypothesis TAKEN : forall x, assoc x consts <> None -> In x taken.
Lemma entries_spec : forall l preds G Y ks ps Y' Ps its, fine ds consts arrays G Y -> (forall x, assoc x (g_preds G) <> None -> In x preds) ->
  plain_entries taken preds l -> Forall (known_process ds ks) ps -> read_entries consts arrays ds roles Y ks ps l = Some (Y', Ps, its) ->
  (forall h b m, In (Inside h b) its -> In m (h_membs h) -> NoDup (own_wvbls (h_net h) (m_pc m))) ->
  read_items consts arrays ds Y its = Some (Y', Ps) /\ every_item (proper_item ds) G its /\ entries_say ds roles G l its.
Proof.
  induction l as [|[st|k body] l IH]; intros preds G Y ks ps Y' Ps its FI PN PL KP E ON; cbn [read_entries] in E.
  - injection E as <- <- <-. cbn. auto.
  - destruct (read_outside consts arrays ds Y st) as [Y1|] eqn:E1; [|discriminate]. destruct (read_entries _ _ _ _ Y1 ks ps l) as [((Y2, Ps2), its2)|] eqn:E2; [|discriminate].
    cbn in E. injection E as <- <- <-. cbn [plain_entries] in PL. destruct PL as (P1 & P2).
    assert (PI : proper_item ds G (Outside st)) by (destruct st; try discriminate E1; exact P1).
    destruct (outside_spec ds consts arrays INH G Y st Y1 FI PI E1) as (FI1 & _).
    destruct (IH (match st with Predicate x _ => x :: preds | _ => preds end) (after_outside G st) Y1 ks ps Y2 Ps2 its2 FI1) as (A & B & C); auto.
    + intros x X. destruct st; cbn [after_outside g_preds] in X; auto. cbn in X. destruct (String.eqb_spec x x0) as [Q|Q]; [left; auto|right; auto].
    + intros h b m I. apply (ON h b). right. auto.
    + cbn [read_items every_item entries_say]. rewrite E1. auto.
  - destruct (read_head ds roles (file_of consts arrays Y) ks ps k) as [h|] eqn:EH; [|discriminate]. destruct (read_body consts arrays h (Y, new_kind h) body) as [(Y1, P)|] eqn:EB; [|discriminate].
    destruct (read_entries _ _ _ _ Y1 _ _ l) as [((Y2, Ps2), its2)|] eqn:E2; [|discriminate]. cbn in E. injection E as <- <- <-. cbn [plain_entries] in PL. destruct PL as (P1 & P2 & P3).
    pose proof (fi_decl _ _ _ _ _ FI) as D. pose proof (d_consts _ _ _ _ D) as DC. cbn in DC.
    destruct (head_spec ds roles (file_of consts arrays Y) G INH D taken ks ps k h) as (HS & (kind & HK) & HP & HA & PH); auto.
    { intros x X. apply TAKEN. rewrite DC. auto. }
    assert (PR : proper_item ds G (Inside h body)).
    { split; [apply PH; intros m I; apply (ON h body); [left; auto|auto]|]. rewrite (hs_idx _ _ _ _ _ HS). apply (Forall_impl _ (P := plain_stmt [kd_idx k] preds)); auto.
      intros st Q. destruct st; cbn in *; auto. destruct Q as (Q1 & Q2). split; auto. destruct (assoc x (g_preds G)) eqn:AS; auto. exfalso. apply Q2, PN. congruence. }
    destruct (inside_spec ds consts arrays INH G Y h body Y1 P FI PR EB) as (FI1 & _ & MS).
    destruct (IH preds G Y1 (kinds (h_net h)) (ps ++ map (fun m => m_pc (mb_pc m)) (k_membs P)) Y2 Ps2 its2 FI1) as (A & B & C); auto.
    + rewrite HP in HA. apply Forall_app in HA. destruct HA as (HA1 & HA2). apply Forall_app. split; auto. clear - MS HA2. induction MS as [|m m' l l' H MS IH]; cbn [map] in *; [constructor|].
      inversion HA2; subst. constructor; auto. destruct H2 as (K1 & K2 & K3). unfold known_process. rewrite (ms_kind _ _ _ _ _ H), (ms_vbls _ _ _ _ _ H). auto.
    + intros h' b m I. apply (ON h' b). right. auto.
    + cbn [read_items every_item entries_say]. rewrite EB, A. cbn. auto.
Qed.
End Entries.

(** ** The whole file *)
Lemma numbered_decls : forall symms doms roles arrays id, numbered symms doms roles arrays id -> Forall (fun d => 0 < vs_size d /\ 0 < vs_dom d) symms ->
  inhabited doms /\ forall x l, assoc x arrays = Some l -> l <> [] /\ Forall (fun v => v < length doms) l.
Proof.
  intros symms doms roles arrays id NB POS. rewrite Forall_forall in POS. split.
  - apply Forall_forall. intros d I. apply In_nth_error in I. destruct I as (v & V). assert (L : v < length doms) by (apply nth_error_Some; congruence).
    destruct (nb_all _ _ _ _ _ NB v L) as (a & j & (q & Q & J) & E). destruct (nb_known _ _ _ _ _ NB a q j Q J) as (X & _). rewrite E, V in X. injection X as ->. apply (POS q). apply (nth_error_In _ _ Q).
  - intros x l A. pose proof (nb_arrays _ _ _ _ _ NB x) as H. rewrite A in H. destruct H as (a & d & _ & D & ->). destruct (POS d (nth_error_In _ _ D)) as (P & _). split.
    + destruct (vs_size d); [lia|discriminate].
    + apply Forall_forall. intros v I. apply in_map_iff in I. destruct I as (j & <- & J). apply in_seq in J. destruct (nb_known _ _ _ _ _ NB a d j D) as (X & _); [lia|]. apply nth_error_Some. congruence.
Qed.
Lemma text_spec : forall given t R, plain_text given t -> read_text given t = Some R ->
  read_consts given (pt_consts t) = Some (r_consts R) /\ Forall2 (array_says (r_consts R)) (pt_vbls t) (r_symms R) /\ r_symms R <> [] /\
  numbered (r_symms R) (r_doms R) (r_roles R) (r_arrays R) (place (map vs_size (r_symms R))) /\
  inhabited (r_doms R) /\ proper_decls (r_doms R) (r_consts R) (r_arrays R) /\
  read_entries (r_consts R) (r_arrays R) (r_doms R) (r_roles R) new_sys [] [] (pt_entries t) = Some (r_sys R, r_kinds R, r_items R).
Proof.
  intros given t R [P1 P2 P3 P4 P5] E. unfold read_text in E. destruct (read_consts given (pt_consts t)) as [C|] eqn:EC; [|discriminate].
  assert (NE : pt_vbls t <> []) by (intros Q; rewrite Q in E; discriminate).
  assert (E' : match read_vdecls C [] (pt_vbls t) with
          | None => None
          | Some symms =>
              let T := commit_variables (map vs_size symms) in
              match read_entries C (table_arrays symms T) (table_doms symms T) (table_roles symms T) new_sys [] [] (pt_entries t) with
              | None => None
              | Some (Y, Ps, items) => Some (mkPresult C symms T Y Ps items)
              end
          end = Some R) by (destruct (pt_vbls t); [discriminate|exact E]). clear E.
  destruct (consts_spec _ _ _ P1 P2 EC) as (CO & _ & CN & _).
  destruct (read_vdecls C [] (pt_vbls t)) as [symms|] eqn:EV; [|discriminate]. destruct (vdecls_spec C _ _ _ CO P3 EV) as (new & Q & F2). cbn in Q. subst new.
  cbv zeta in E'. destruct (read_entries _ _ _ _ _ _ _ _) as [((Y, Ps), its)|] eqn:EE; [|discriminate]. injection E' as <-. cbn [r_consts r_symms r_sys r_kinds r_items]. unfold r_doms, r_roles, r_arrays. cbn [r_consts r_symms r_table].
  pose proof (numbered_spec symms) as NB. cbv zeta in NB.
  assert (POS : Forall (fun d => 0 < vs_size d /\ 0 < vs_dom d) symms). { clear - F2. induction F2 as [|d a l l' H F IH]; constructor; auto. destruct H as (_ & _ & _ & A & _ & B). auto. }
  destruct (numbered_decls _ _ _ _ _ NB POS) as (IN & AR).
  split; auto. split; auto. split; [intros ->; inversion F2; subst; congruence|]. split; auto. split; auto. split; auto. constructor; auto.
  intros x X. destruct (assoc x C) as [v|] eqn:AC; auto. exfalso. pose proof (nb_arrays _ _ _ _ _ NB x) as H. destruct (assoc x (table_arrays symms _)) as [vs|]; [|contradiction].
  destruct H as (a & d & ((d' & D' & N) & _) & D & _). rewrite D in D'. injection D' as <-.
  assert (I : exists vd, In vd (pt_vbls t) /\ vd_name vd = x).
  { destruct (f2_nth _ _ _ _ _ F2 a d D) as (vd & V & S). exists vd. split; [apply (nth_error_In _ _ V)|]. destruct S as (_ & S & _). congruence. }
  destruct I as (vd & I & <-). apply (P4 vd I). apply in_or_app. destruct (proj1 (CN (vd_name vd))) as [G|G]; [congruence| |auto].
  left. destruct (assoc (vd_name vd) given) as [w|] eqn:W; [|contradiction]. apply assoc_in in W. apply (in_map fst) in W. auto.
Qed.
Lemma taken_spec : forall given t C, plain_text given t -> read_consts given (pt_consts t) = Some C ->
  forall x, assoc x C <> None -> In x (map fst given ++ map const_name (pt_consts t)).
Proof.
  intros given t C [P1 P2 _ _ _] E x X. destruct (consts_spec _ _ _ P1 P2 E) as (_ & _ & CN & _). apply CN in X. apply in_or_app. destruct X as [X|X]; auto. left.
  destruct (assoc x given) as [w|] eqn:W; [|contradiction]. apply assoc_in in W. apply (in_map fst) in W. auto.
Qed.
Lemma file_spec : forall given t R, plain_text given t -> read_text given t = Some R -> writes_once R ->
  read_file (r_consts R) (r_arrays R) (r_doms R) (r_items R) = Some (r_sys R, r_kinds R) /\
  every_item (proper_item (r_doms R)) (at_first (r_consts R) (r_arrays R)) (r_items R) /\
  entries_say (r_doms R) (r_roles R) (at_first (r_consts R) (r_arrays R)) (pt_entries t) (r_items R).
Proof.
  intros given t R PL E ON. destruct (text_spec given t R PL E) as (EC & _ & _ & _ & INH & PD & EE).
  apply (entries_spec (r_consts R) (r_arrays R) (r_doms R) (r_roles R) (map fst given ++ map const_name (pt_consts t)) INH (taken_spec given t _ PL EC) (pt_entries t) [] (at_first (r_consts R) (r_arrays R)) new_sys [] []); auto.
  - apply new_fine. auto.
  - cbn. contradiction.
  - apply (px_entries _ _ PL).
Qed.
