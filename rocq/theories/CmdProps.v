(** C69: the actions of a protocol file mean what they say. *)
From Coq Require Import String List Arith Bool ZArith Lia.
From Verif Require Import FinLib Radix FmlaModel FmlaSpec FmlaProofs FmlaProofs2 FmlaProofs4
  ActModel NetModel IntModel IntSpec ExprModel ExprSpec ReachSpec ReachProofs CmdModel CmdSpec CmdProofs3 CmdProofs4.
Import ListNotations.
Local Open Scope list_scope.
Local Open Scope string_scope.

(** An accepted action has exactly the steps that its guard and its assignments describe. *)
Theorem C69_command : forall N F idx lets preds mb G auto r act x, inhabited (vdoms N) ->
  declares (vdoms N) F (Some (use_of lets preds mb)) G -> proper_process N (m_pc mb) ->
  fresh_command [idx] act -> any_last (a_assigns act) ->
  parse_action N F idx lets preds mb auto r act = Some x ->
  trans_fmla (vdoms N) x /\
  forall s t, ok (vdoms N) s -> ok (vdoms N) t ->
  (FmlaSpec.steps x s t <-> action_step N (m_pc mb) G [(idx, m_index mb)] auto act r s t).
Proof.
  intros N F idx lets preds mb G auto r act x INH D P FR LAST E.
  exact (parse_means N F idx lets preds mb G INH D P auto r act x FR LAST E).
Qed.
Print Assumptions C69_command.

(** The plain case: "-->", no random variables, all assigned variables can be read. *)
Theorem C69_plain : forall N F idx lets preds mb G auto r act x, inhabited (vdoms N) ->
  declares (vdoms N) F (Some (use_of lets preds mb)) G -> proper_process N (m_pc mb) ->
  fresh_command [idx] act -> any_last (a_assigns act) ->
  a_cut act = false -> random_vbls N = [] -> existsb synt_writeonly_ck (accs (kind_of N (m_pc mb))) = false ->
  parse_action N F idx lets preds mb auto r act = Some x ->
  forall s t, ok (vdoms N) s -> ok (vdoms N) t ->
  (FmlaSpec.steps x s t <-> command_step (vdoms N) G [(idx, m_index mb)] auto (own_wvbls N (m_pc mb)) act s t).
Proof.
  intros N F idx lets preds mb G auto r act x INH D P FR LAST CUT NR NW E s t S T.
  destruct (parse_means N F idx lets preds mb G INH D P auto r act x FR LAST E) as (_ & H). rewrite (H s t S T). clear H.
  assert (KE : kept N (m_pc mb) (a_cut act) = own_wvbls N (m_pc mb)).
  { rewrite CUT. unfold kept, own_wvbls. f_equal. induction (seq 0 (nw (kind_of N (m_pc mb)))) as [|w l IH]; cbn; [auto|]. f_equal. auto. }
  assert (DR : rev (filter (drawn N) (p_vbls (m_pc mb))) = []).
  { assert (K : forall l, filter (drawn N) l = []) by (induction l as [|v l IH]; cbn; auto; unfold drawn at 1; rewrite NR; auto). rewrite K. auto. }
  assert (RS : raw_step N (m_pc mb) G (index_of idx mb) auto act s t <->
     command_step (vdoms N) G [(idx, m_index mb)] auto (own_wvbls N (m_pc mb)) act s t).
  { unfold raw_step. rewrite KE, DR. cbn [redrawn]. split; [intros (s0 & _ & -> & C); exact C|]. intros C. exists s. auto. }
  rewrite <- RS. split; [intros [H _ _]; auto|]. intros H. constructor; [auto|congruence|].
  intros (w & W & SW & _). exfalso.
  assert (K : existsb synt_writeonly_ck (accs (kind_of N (m_pc mb))) = true); [|congruence].
  apply existsb_exists. unfold waccess in SW. exists (acc (kind_of N (m_pc mb)) (nth w (wmap (kind_of N (m_pc mb))) 0)). split; auto.
  unfold acc. apply nth_In. assert (I : In (nth w (wmap (kind_of N (m_pc mb))) 0) (wmap (kind_of N (m_pc mb)))) by (apply nth_In; auto).
  unfold wmap in I at 2. apply filter_In in I. destruct I as (I & _). apply in_seq in I. unfold nr in I. lia.
Qed.
Print Assumptions C69_plain.

(** It says nothing of variables that the process does not write. *)
Theorem C69_writes : forall N F idx lets preds mb G auto r act x, inhabited (vdoms N) ->
  declares (vdoms N) F (Some (use_of lets preds mb)) G -> proper_process N (m_pc mb) ->
  fresh_command [idx] act -> any_last (a_assigns act) -> a_cut act = false ->
  parse_action N F idx lets preds mb auto r act = Some x ->
  writes_only (vdoms N) (own_wvbls N (m_pc mb)) x.
Proof.
  intros N F idx lets preds mb G auto r act x INH D P FR LAST CUT E.
  exact (parse_writes N F idx lets preds mb G INH D P auto r act x FR LAST CUT E).
Qed.
Print Assumptions C69_writes.

(** An action whose parts all have values, and that assigns only variables of the process, is accepted. *)
Theorem C69_accepted : forall N F idx lets preds mb G auto r act, inhabited (vdoms N) ->
  declares (vdoms N) F (Some (use_of lets preds mb)) G -> proper_process N (m_pc mb) ->
  fresh_command [idx] act -> any_last (a_assigns act) ->
  total_action N (m_pc mb) G [(idx, m_index mb)] act ->
  parse_action N F idx lets preds mb auto r act <> None.
Proof.
  intros N F idx lets preds mb G auto r act INH D P FR LAST T E.
  destruct (parse_total N F idx lets preds mb G INH D P auto r act FR LAST T) as (x & E'). congruence.
Qed.
Print Assumptions C69_accepted.

(** Adding an action for the processes of a kind adds its steps, and no others, to the processes and to the system. *)
Theorem C69_added : forall N F idx lets preds (G : membr -> scope) mbs r act T, inhabited (vdoms N) ->
  wf_ids (vdoms N) (random_vbls N) ->
  Forall (fun mb => proper_process N (m_pc mb)) mbs ->
  Forall (fun mb => declares (vdoms N) F (Some (use_of lets preds mb)) (G mb)) mbs ->
  fresh_command [idx] act -> any_last (a_assigns act) ->
  trans_fmla (vdoms N) (t_direct T) -> trans_fmla (vdoms N) (t_shadow T) -> Forall (grown_so_far N) mbs ->
  let steps_of mb := action_step N (m_pc mb) (G mb) [(idx, m_index mb)] true act r in
  let all s t := exists mb, In mb mbs /\ steps_of mb s t /\ agree_off (vdoms N) (written N (m_pc mb)) t s in
  ((forall mb, In mb mbs -> total_action N (m_pc mb) (G mb) [(idx, m_index mb)] act) ->
    add_action N F idx lets preds mbs r act T <> None) /\
  forall mbs' T', add_action N F idx lets preds mbs r act T = Some (mbs', T') ->
  Forall2 (fun m m' => member_grown N r (steps_of m) m m') mbs mbs' /\ Forall (grown_so_far N) mbs' /\
  trans_fmla (vdoms N) (t_direct T') /\ trans_fmla (vdoms N) (t_shadow T') /\
  forall s t, ok (vdoms N) s -> ok (vdoms N) t ->
  (FmlaSpec.steps (t_direct T') s t <-> FmlaSpec.steps (t_direct T) s t \/ (r <> Shadow /\ all s t)) /\
  (FmlaSpec.steps (t_shadow T') s t <-> FmlaSpec.steps (t_shadow T) s t \/
     (r <> Puppet /\ specified N all s t /\ ~ agree_off (vdoms N) (out_of_sight N Shadow) t s)).
Proof.
  intros N F idx lets preds G mbs r act T INH RK PR D FR LAST TD TS SF steps_of all.
  pose proof (add_spec N F idx lets preds INH G mbs act RK PR D FR LAST r T TD TS SF) as H. split.
  - intros TOT. destruct (H (or_introl TOT)) as (mbs' & T' & E & _). rewrite E. discriminate.
  - intros mbs' T' E. destruct H as (ms & T1 & E1 & M & H1 & H2 & H3); [right; congruence|]. rewrite E in E1. injection E1 as <- <-.
    split; [apply (f2_impl _ _ _ _ _ _ M); intros a b (K & _); exact K|]. split; [|split; [|split]]; auto.
    clear - M. induction M as [|a b l l' (_ & K) M IH]; constructor; auto.
Qed.
Print Assumptions C69_added.

(** Permitting or forbidding an action marks exactly its steps; unlike in an added action, variables without an
    assignment may change unless the action says otherwise. *)
Theorem C69_marked : forall N F idx lets preds (G : membr -> scope) mbs (forbidden : bool) act mbs', inhabited (vdoms N) ->
  wf_ids (vdoms N) (random_vbls N) ->
  Forall (fun mb => proper_process N (m_pc mb)) mbs ->
  Forall (fun mb => declares (vdoms N) F (Some (use_of lets preds mb)) (G mb)) mbs ->
  fresh_command [idx] act -> any_last (a_assigns act) ->
  (if forbidden then forbid_action else permit_action) N F idx lets preds mbs act = Some mbs' ->
  Forall2 (fun m m' => member_marked N forbidden (action_step N (m_pc m) (G m) [(idx, m_index m)] false act Puppet) m m') mbs mbs'.
Proof.
  intros N F idx lets preds G mbs forbidden act mbs' INH RK PR D FR LAST E.
  eapply mark_spec; eauto.
Qed.
Print Assumptions C69_marked.

(** ** "-=>" *)
(** No step of the process alone that an action with "-=>" has leaves all its visible variables as they are. *)
Theorem C69_no_self_loops : forall N p G b auto act r s t, ok (vdoms N) s -> ok (vdoms N) t -> a_cut act = true ->
  agree_off (vdoms N) (own_wvbls N p) t s -> action_step N p G b auto act r s t ->
  exists v, In v (own_wvbls N p) /\ ~ In v (out_of_sight N r) /\ nth v t 0 <> nth v s 0.
Proof.
  intros N p G b auto act r s t S T CUT AG [RAW NC _]. specialize (NC CUT).
  destruct (existsb (fun v => negb (existsb (Nat.eqb v) (out_of_sight N r)) && negb (Nat.eqb (nth v t 0) (nth v s 0))) (own_wvbls N p)) eqn:E.
  - apply existsb_exists in E. destruct E as (v & V & E). apply andb_true_iff in E. destruct E as (E1 & E2). exists v. split; auto. split.
    + intros I. apply negb_true_iff in E1. assert (K : existsb (Nat.eqb v) (out_of_sight N r) = true); [|congruence].
      apply existsb_exists. exists v. split; auto. apply Nat.eqb_refl.
    + apply negb_true_iff, Nat.eqb_neq in E2. auto.
  - exfalso. apply NC.
    assert (SAME : forall v, v < length (vdoms N) -> ~ In v (out_of_sight N r) -> nth v t 0 = nth v s 0).
    { intros v L NI. destruct (in_dec Nat.eq_dec v (own_wvbls N p)) as [I|I]; [|apply AG; auto].
      destruct (Nat.eqb_spec (nth v t 0) (nth v s 0)) as [|NE]; auto. exfalso.
      assert (K : existsb (fun v => negb (existsb (Nat.eqb v) (out_of_sight N r)) && negb (Nat.eqb (nth v t 0) (nth v s 0))) (own_wvbls N p) = true); [|congruence].
      apply existsb_exists. exists v. split; auto. apply andb_true_iff. split; apply negb_true_iff.
      - apply not_true_iff_false. intros X. apply existsb_exists in X. destruct X as (u & U & X). apply Nat.eqb_eq in X. subst u. auto.
      - apply Nat.eqb_neq. auto. }
    assert (FX : forall v, In v (only_read N p r) -> nth v t 0 = nth v s 0).
    { intros v V. unfold only_read in V. apply in_map_iff in V. destruct V as (i & <- & I). apply filter_In in I. destruct I as (_ & I).
      rewrite !andb_true_iff in I. destruct I as ((I1 & I2) & I3). destruct (lt_dec (rvbl p i) (length (vdoms N))) as [L|L].
      - apply SAME; auto. intros X. apply negb_true_iff in I3. assert (K : existsb (Nat.eqb (rvbl p i)) (out_of_sight N r) = true); [|congruence].
        apply existsb_exists. exists (rvbl p i). split; auto. apply Nat.eqb_refl.
      - rewrite !nth_overflow; auto; [rewrite (ok_length _ s S)|rewrite (ok_length _ t T)]; lia. }
    assert (X : forall u w, (u = s \/ u = t) -> (w = s \/ w = t) -> seen (vdoms N) (raw_step N p G b auto act) (out_of_sight N r) (only_read N p r) u w).
    { intros u w U W. split; [destruct U; subst; auto|]. split; [destruct W; subst; auto|]. split.
      - exists s, t. do 2 (split; [auto|]). split; [destruct U; subst; intros k K NK; auto; symmetry; apply SAME; auto|].
        split; [destruct W; subst; intros k K NK; auto|]. auto.
      - intros v V. specialize (FX v V). destruct U, W; subst; auto. }
    exists t. split; auto. split; [intros k K NK; auto|]. split; [apply X; auto|].
    split; [exists s, s|exists t, t]; (split; [auto|]); unfold on_cycle, reaches; repeat split.
    all: try (exists 0; apply steps_0; reflexivity).
    all: try (exists 0; apply steps_one; apply X; auto).
    all: try (exists 0; constructor).
Qed.
Print Assumptions C69_no_self_loops.

(** If no step can be followed by another one (except from where it began), "-=>" removes nothing else. *)
Theorem C69_self_disabling : forall N p G b auto act r s t, ok (vdoms N) s -> ok (vdoms N) t -> a_cut act = true ->
  proper_process N p -> NoDup (p_vbls p) ->
  agree_off (vdoms N) (own_wvbls N p) t s -> ~ assigns_unseen N p G b act s ->
  (let visible := seen (vdoms N) (raw_step N p G b auto act) (out_of_sight N r) (only_read N p r) in
   forall s t u, visible s t -> visible t u -> t = s) ->
  (action_step N p G b auto act r s t <->
   raw_step N p G b auto act s t /\ exists v, In v (own_wvbls N p) /\ ~ In v (out_of_sight N r) /\ nth v t 0 <> nth v s 0).
Proof.
  intros N p G b auto act r s t S T CUT PP ND AG NU ONCE. split.
  - intros A. split; [destruct A; auto|]. eapply C69_no_self_loops; eauto.
  - intros (RAW & v & V1 & V2 & NE). constructor; auto; [|contradiction].
    intros _ (t' & T' & AF & SN & _ & (c1 & c2 & _ & _ & _ & (m & RC) & (n & CY))).
    assert (U : exists u, seen (vdoms N) (raw_step N p G b auto act) (out_of_sight N r) (only_read N p r) t' u).
    { destruct m as [|m]; [apply steps_0 in RC; subst c2; apply steps_S in CY; destruct CY as (u & U & _); eauto|].
      apply steps_S in RC. destruct RC as (u & U & _). eauto. }
    destruct U as (u & U). pose proof (ONCE s t' u SN U) as E. subst t'. apply NE. symmetry. apply AF.
    + pose proof (own_known N (mkMembr p 0 0%Z) PP) as K. unfold wf_ids in K. rewrite Forall_forall in K. apply K. auto.
    + intros F. unfold own_wvbls in V1. apply in_map_iff in V1. destruct V1 as (w & <- & W). apply in_seq in W.
      unfold only_read in F. apply in_map_iff in F. destruct F as (i & E & I). apply filter_In in I. destruct I as (I1 & I2). apply in_seq in I1.
      rewrite !andb_true_iff in I2. destruct I2 as ((I2 & _) & _). apply negb_true_iff in I2.
      assert (J : In (nth w (wmap (kind_of N p)) 0) (wmap (kind_of N p))) by (apply nth_In; unfold nw in W; lia).
      set (j := nth w (wmap (kind_of N p)) 0) in *. unfold wmap in J. apply filter_In in J. destruct J as (J1 & J2). apply in_seq in J1.
      assert (i = j); [|subst i; congruence]. apply (proj1 (NoDup_nth (p_vbls p) 0) ND); [rewrite (pp_length _ _ PP); lia|rewrite (pp_length _ _ PP); lia|].
      exact E.
Qed.
Print Assumptions C69_self_disabling.

(** ** Where they do not *)
Definition solo (vs : list nat) (k : pcsymm) (l : list nat) : network :=
  mkNetwork vs (repeat Direct (length vs)) [k] [mkProcess 0 l (Cst true) (Cst false) (Cst false) (Cst false) (Cst false)].
Definition me (l : list nat) : membr := mkMembr (mkProcess 0 l (Cst true) (Cst false) (Cst false) (Cst false) (Cst false)) 0 0%Z.
Definition written_access (d : nat) : access := {| a_type := WriteAccess; a_role := Direct; a_dom := d |}.
Definition arrays_file (l : list (string * list nat)) : file := mkFile [] l [].
Definition arrays_scope (l : list (string * list nat)) : scope := mkScope [] [] [] l [].
Definition at0 (x : string) : sexp := SAref x (SNat 0).

Lemma arrays_declare : forall ds l mb, (forall x vs, assoc x l = Some vs -> vs <> [] /\ Forall (fun v => v < length ds) vs) ->
  declares ds (arrays_file l) (Some (use_of [] [] mb)) (arrays_scope l).
Proof.
  intros ds l mb H. constructor; cbn; auto; try discriminate.
  - constructor.
  - constructor.
  - constructor.
Qed.

(** An assignment that follows "_ := _" is lost, and so are those before it. *)
Theorem C69_any_first_refuted : exists N F mb G act x s t, inhabited (vdoms N) /\
  declares (vdoms N) F (Some (use_of [] [] mb)) G /\ proper_process N (m_pc mb) /\ fresh_command ["i"] act /\
  parse_action N F "i" [] [] mb true Puppet act = Some x /\ ok (vdoms N) s /\ ok (vdoms N) t /\
  FmlaSpec.steps x s t /\ ~ action_step N (m_pc mb) G [("i", m_index mb)] true act Puppet s t.
Proof.
  exists (solo [2] {| accs := [written_access 2]; symms := [] |} [0]), (arrays_file [("x", [0])]), (me [0]), (arrays_scope [("x", [0])]),
    (mkAction false (SName "true") [AAnyRest; ASet "x" (SNat 0) (Some (SNat 1))]).
  eexists. exists [0], [0]. split; [repeat constructor|]. split; [|split; [|split; [|split; [vm_compute; reflexivity|split; [repeat constructor|split; [repeat constructor|split]]]]]].
  - apply arrays_declare. intros x vs. cbn. destruct (String.eqb x "x"); [|discriminate]. intros E. injection E as <-. split; [discriminate|]. repeat constructor.
  - constructor; [reflexivity|repeat constructor|]. vm_compute. constructor; [intros []|constructor].
  - split; [exact I|]. intros x i e [E|[E|[]]]; [discriminate|]. injection E as <- <- <-. split; [exact I|]. intros e' E. injection E as <-. exact I.
  - vm_compute. reflexivity.
  - intros [(s0 & _ & _ & [_ C _]) _ _]. destruct (C "x" (SNat 0) (SNat 1) 0) as (z & Z1 & Z2); [right; left; reflexivity|reflexivity|].
    cbn in Z1. injection Z1 as <-. vm_compute in Z2. discriminate.
Qed.
Print Assumptions C69_any_first_refuted.

(** A process that writes one variable through two accesses cannot change it: only the first access counts as assigned. *)
Theorem C69_written_twice_refuted : exists N F mb G act x s t, inhabited (vdoms N) /\
  declares (vdoms N) F (Some (use_of [] [] mb)) G /\ fresh_command ["i"] act /\ any_last (a_assigns act) /\
  parse_action N F "i" [] [] mb true Puppet act = Some x /\ ok (vdoms N) s /\ ok (vdoms N) t /\
  ~ FmlaSpec.steps x s t /\ action_step N (m_pc mb) G [("i", m_index mb)] true act Puppet s t.
Proof.
  exists (solo [2] {| accs := [written_access 2; written_access 2]; symms := [] |} [0; 0]), (arrays_file [("x", [0])]), (me [0; 0]), (arrays_scope [("x", [0])]),
    (mkAction false (SName "true") [ASet "x" (SNat 0) (Some (SNat 1))]).
  eexists. exists [0], [1]. split; [repeat constructor|]. split; [|split; [|split; [|split; [vm_compute; reflexivity|split; [repeat constructor|split; [repeat constructor|split]]]]]].
  - apply arrays_declare. intros x vs. cbn. destruct (String.eqb x "x"); [|discriminate]. intros E. injection E as <-. split; [discriminate|]. repeat constructor.
  - split; [exact I|]. intros x i e [E|[]]. injection E as <- <- <-. split; [exact I|]. intros e' E. injection E as <-. exact I.
  - intros l1 l2 E. destruct l1 as [|a [|]]; discriminate.
  - vm_compute. discriminate.
  - constructor; [|discriminate|].
    + exists [0]. split; [repeat constructor|]. split; [reflexivity|]. constructor; [reflexivity| |].
      * intros x i e v [E|[]] C. injection E as <- <- <-. vm_compute in C. injection C as <-. exists 1%Z. split; reflexivity.
      * intros _ v V NA. exfalso. apply NA. exists "x", (SNat 0), (Some (SNat 1)). split; [left; reflexivity|]. vm_compute in V. destruct V as [<-|[<-|[]]]; reflexivity.
    + intros (w & W & SW & _). vm_compute in SW. destruct w as [|[|w]]; try discriminate. vm_compute in W. lia.
Qed.
Print Assumptions C69_written_twice_refuted.

(** "-=>" is said to remove self-loops (doc/webtex/permit.tex).  It removes more: of [true -=> x := (x+1) % 3;] nothing is left. *)
Theorem C69_rotation_refuted : exists N F mb G act x y, inhabited (vdoms N) /\
  declares (vdoms N) F (Some (use_of [] [] mb)) G /\ proper_process N (m_pc mb) /\ fresh_command ["i"] act /\ any_last (a_assigns act) /\
  parse_action N F "i" [] [] mb true Puppet act = Some x /\
  parse_action N F "i" [] [] mb true Puppet (mkAction true (a_guard act) (a_assigns act)) = Some y /\
  (forall s, ok (vdoms N) s -> (exists t, ok (vdoms N) t /\ FmlaSpec.steps x s t) /\ ~ FmlaSpec.steps x s s) /\
  (forall s t, ok (vdoms N) s -> ok (vdoms N) t -> ~ FmlaSpec.steps y s t).
Proof.
  exists (solo [3] {| accs := [written_access 3]; symms := [] |} [0]), (arrays_file [("x", [0])]), (me [0]), (arrays_scope [("x", [0])]),
    (mkAction false (SName "true") [ASet "x" (SNat 0) (Some (SBin ModOp (SBin AddOp (at0 "x") (SNat 1)) (SNat 3)))]).
  eexists _, _. split; [repeat constructor|]. split; [|split; [|split; [|split; [|split; [vm_compute; reflexivity|split; [vm_compute; reflexivity|split]]]]]].
  - apply arrays_declare. intros x vs. cbn. destruct (String.eqb x "x"); [|discriminate]. intros E. injection E as <-. split; [discriminate|]. repeat constructor.
  - constructor; [reflexivity|repeat constructor|]. vm_compute. constructor; [intros []|constructor].
  - split; [exact I|]. intros x i e [E|[]]. injection E as <- <- <-. split; [exact I|]. intros e' E. injection E as <-. cbn. auto.
  - intros l1 l2 E. destruct l1 as [|a [|]]; discriminate.
  - intros s S. inversion S as [|a d s' ds' A S']; subst. inversion S'; subst. split.
    + exists [(a + 1) mod 3]. split; [constructor; [apply Nat.mod_upper_bound; lia|constructor]|].
      destruct a as [|[|[|a]]]; [| | |lia]; vm_compute; reflexivity.
    + destruct a as [|[|[|a]]]; [| | |lia]; vm_compute; discriminate.
  - intros s t S T. inversion S as [|a d s' ds' A S']; subst. inversion S'; subst. inversion T as [|c d t' ds' C T']; subst. inversion T'; subst.
    destruct a as [|[|[|a]]]; [| | |lia]; destruct c as [|[|[|c]]]; try lia; vm_compute; discriminate.
Qed.
Print Assumptions C69_rotation_refuted.

(** It even removes steps that lie on no cycle, if they are between cycles: with x and y in {0,1},
    [true -=> x := x+y-x*y; y := _;] cannot leave x = 0, y = 1, a state to which no step returns. *)
Theorem C69_between_cycles_refuted : exists N F mb G act x y s t, inhabited (vdoms N) /\
  declares (vdoms N) F (Some (use_of [] [] mb)) G /\ proper_process N (m_pc mb) /\ fresh_command ["i"] act /\ any_last (a_assigns act) /\
  parse_action N F "i" [] [] mb true Puppet act = Some x /\
  parse_action N F "i" [] [] mb true Puppet (mkAction true (a_guard act) (a_assigns act)) = Some y /\
  ok (vdoms N) s /\ ok (vdoms N) t /\ FmlaSpec.steps x s t /\ ~ FmlaSpec.steps y s t /\
  ~ reaches (list nat) (fun s t => ok (vdoms N) s /\ ok (vdoms N) t /\ FmlaSpec.steps x s t) t s.
Proof.
  exists (solo [2; 2] {| accs := [written_access 2; written_access 2]; symms := [] |} [0; 1]), (arrays_file [("x", [0]); ("y", [1])]), (me [0; 1]), (arrays_scope [("x", [0]); ("y", [1])]),
    (mkAction false (SName "true") [ASet "x" (SNat 0) (Some (SBin SubOp (SBin AddOp (at0 "x") (at0 "y")) (SBin MulOp (at0 "x") (at0 "y")))); ASet "y" (SNat 0) None]).
  eexists _, _. exists [0; 1], [1; 0].
  split; [repeat constructor|]. split; [|split; [|split; [|split; [|split; [vm_compute; reflexivity|split; [vm_compute; reflexivity|split; [repeat constructor|split; [repeat constructor|split; [vm_compute; reflexivity|split; [vm_compute; discriminate|]]]]]]]]]].
  - apply arrays_declare. intros x vs. cbn. destruct (String.eqb x "x"); [intros E; injection E as <-; split; [discriminate|]; repeat constructor|].
    destruct (String.eqb x "y"); [|discriminate]. intros E. injection E as <-. split; [discriminate|]. repeat constructor.
  - constructor; [reflexivity|repeat constructor|]. vm_compute. constructor; [intros [E|[]]; discriminate|]. constructor; [intros []|constructor].
  - split; [exact I|]. intros x i e [E|[E|[]]]; injection E as <- <- <-; (split; [exact I|]); intros e' E; [injection E as <-; cbn; auto|discriminate].
  - intros l1 l2 E. destruct l1 as [|a [|c [|]]]; discriminate.
  - match goal with |- ~ reaches _ ?R _ _ => set (RR := R) end.
    assert (INV : forall n u, steps (list nat) RR n [1; 0] u -> nth 0 u 0 = 1).
    { induction n as [|n IH]; intros u H; [apply steps_0 in H; subst u; reflexivity|]. apply steps_S_r in H. destruct H as (w & H & (W & U & ST)). specialize (IH w H).
      inversion W as [|a d w' dw A W']; subst. inversion W' as [|c d w'' dw' C W'']; subst. inversion W''; subst.
      inversion U as [|e d u' du E1 U']; subst. inversion U' as [|f d u'' du' F1 U'']; subst. inversion U''; subst. cbn in IH. subst a.
      destruct c as [|[|c]]; [| |lia]; destruct e as [|[|e]]; try lia; destruct f as [|[|f]]; try lia; vm_compute in ST; try discriminate ST; reflexivity. }
    intros (n & H). apply INV in H. discriminate.
Qed.
Print Assumptions C69_between_cycles_refuted.

(** ** A concrete case *)
(** Three variables x[0], x[1], x[2] in {0,1,2}; process i reads x[i-1] and writes x[i]:
    [x[i-1] != x[i] --> x[i] := x[i-1];]. *)
Definition ring_kind : pcsymm := {| accs := [{| a_type := ReadAccess; a_role := Direct; a_dom := 3 |}; written_access 3]; symms := [] |}.
Definition ring_proc (i : nat) : process := mkProcess 0 [(i + 2) mod 3; i] (Cst true) (Cst false) (Cst false) (Cst false) (Cst false).
Definition ring_net : network := mkNetwork [3; 3; 3] [Direct; Direct; Direct] [ring_kind] (map ring_proc [0; 1; 2]).
Definition ring_mbs : list membr := map (fun i => mkMembr (ring_proc i) i (Z.of_nat i)) [0; 1; 2].
Definition ring_act : action :=
  mkAction false (SCmp CNe (SAref "x" (SBin SubOp (SName "i") (SNat 1))) (SAref "x" (SName "i")))
    [ASet "x" (SName "i") (Some (SAref "x" (SBin SubOp (SName "i") (SNat 1))))].
Example C69_example : inhabited (vdoms ring_net) /\ wf_ids (vdoms ring_net) (random_vbls ring_net) /\
  Forall (fun mb => proper_process ring_net (m_pc mb)) ring_mbs /\
  Forall (fun mb => declares (vdoms ring_net) (arrays_file [("x", [0; 1; 2])]) (Some (use_of [] [] mb)) (arrays_scope [("x", [0; 1; 2])])) ring_mbs /\
  fresh_command ["i"] ring_act /\ any_last (a_assigns ring_act) /\ Forall (grown_so_far ring_net) ring_mbs /\
  (forall mb, In mb ring_mbs -> total_action ring_net (m_pc mb) (arrays_scope [("x", [0; 1; 2])]) [("i", m_index mb)] ring_act) /\
  exists mbs' T', add_action ring_net (arrays_file [("x", [0; 1; 2])]) "i" [] [] ring_mbs Direct ring_act (mkTotals (Cst false) (Cst false)) = Some (mbs', T') /\
  map (fun st => eval (t_direct T') (join (fst st) (snd st) (fst st)))
    [([1; 0; 0], [1; 1; 0]); ([1; 0; 0], [0; 0; 0]); ([1; 0; 0], [1; 0; 1]); ([1; 0; 0], [1; 2; 0]); ([2; 2; 2], [2; 2; 2])] =
    [true; true; false; false; false].
Proof.
  split; [repeat constructor|]. split; [constructor|]. split; [|split; [|split; [|split; [|split; [|split]]]]].
  - repeat (constructor; [constructor; [reflexivity|repeat constructor|vm_compute; constructor; [intros []|constructor]]|]). constructor.
  - assert (D : forall mb, declares (vdoms ring_net) (arrays_file [("x", [0; 1; 2])]) (Some (use_of [] [] mb)) (arrays_scope [("x", [0; 1; 2])])).
    { intros mb. apply arrays_declare. intros x vs. cbn. destruct (String.eqb x "x"); [|discriminate]. intros E. injection E as <-. split; [discriminate|]. repeat constructor. }
    repeat (constructor; [apply D|]). constructor.
  - split; [cbn; auto|]. intros x i e [E|[]]. injection E as <- <- <-. split; [cbn; auto|]. intros e' E. injection E as <-. cbn. auto.
  - intros l1 l2 E. destruct l1 as [|a [|]]; discriminate.
  - repeat (constructor; [split; intros a a' i s A A' I S; tauto|]). constructor.
  - assert (MB : forall (P : membr -> Prop), P (mkMembr (ring_proc 0) 0 0%Z) -> P (mkMembr (ring_proc 1) 1 1%Z) -> P (mkMembr (ring_proc 2) 2 2%Z) -> forall mb, In mb ring_mbs -> P mb).
    { intros P P0 P1 P2 mb [<-|[<-|[<-|[]]]]; auto. }
    apply MB; (split; [cbn; repeat split; try discriminate|]).
    all: try (intros s k v _ E1 E2; injection E1 as <-; vm_compute in E2; injection E2 as <-; vm_compute; auto).
    all: intros x i e [E|[]]; injection E as <- <- <-; cbn; repeat split; try discriminate.
    all: try (exists [0; 1; 2]; split; [reflexivity|]; intros s k v _ E1 E2; injection E1 as <-; vm_compute in E2; injection E2 as <-; vm_compute; auto).
    all: intros e' E; injection E as <-; cbn; repeat split; try discriminate.
    all: intros s k v _ E1 E2; injection E1 as <-; vm_compute in E2; injection E2 as <-; vm_compute; auto.
  - eexists _, _. split; [vm_compute; reflexivity|]. vm_compute. reflexivity.
Qed.
