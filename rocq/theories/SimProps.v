(** C82-C84: the interactive simulator. *)
From Coq Require Import List Arith Bool ZArith Lia Ascii String Permutation.
From Verif Require Import FinLib Radix FmlaModel FmlaSpec FmlaProofs FmlaProofs2 FmlaProofs3 FmlaProofs4 FmlaProps
  ReachModel ReachSpec ReachProofs CandProofs CmdModel CmdProofs2 SimModel SimSpec SimProofs SimProofs2 SimProofs3.
Import ListNotations.
Local Open Scope list_scope.

(** C82: show-img and show-pre print one line for each other state of the mask that is one transition
    away, and no other lines.  No two of the lines are the same. *)
Theorem C82_options_exact : forall ds names xn invariant assume, simulated ds names xn invariant assume ->
  forall mask, state_fmla ds mask -> forall forward s, ok ds s ->
  exists l, next_options ds names xn forward s mask = Some (map (diff_line ds names s) l) /\
    lists ds xn forward (holds mask) s l /\ NoDup (map (diff_line ds names s) l).
Proof.
  intros ds names xn invariant assume [D N DI W X I A] mask M forward s S.
  destruct (next_states_spec ds D xn X forward s mask S M) as (l & E & ND & H). exists l. unfold next_options. rewrite E.
  split; auto. split; [split; auto|].
  assert (IN : forall t, In t l -> ok ds t) by (intros t T; apply H in T; apply T). clear E H. induction ND as [|t l NI ND IH]; cbn [map]; constructor.
  - intros C. apply in_map_iff in C. destruct C as (t' & E & T'). apply NI. replace t with t'; auto.
    rewrite <- (assign_there ds names N DI W s t' S (IN t' (or_intror T'))), E. apply assign_there; auto. apply IN. left. auto.
  - apply IH. intros t' T'. apply IN. right. auto.
Qed.
Print Assumptions C82_options_exact.

(** Giving such a line to "assign" in the same state leads to the state that it stands for; in any
    other state it changes the same variables and no others. *)
Theorem C82_line_leads_there : forall ds names xn invariant assume, simulated ds names xn invariant assume ->
  forall s t, ok ds s -> ok ds t -> assign ds names (diff_line ds names s t) s = t /\
  forall u, ok ds u -> ok ds (assign ds names (diff_line ds names s t) u) /\
  forall v, v < List.length ds -> nth v (assign ds names (diff_line ds names s t) u) 0 = if nth v t 0 =? nth v s 0 then nth v u 0 else nth v t 0.
Proof.
  intros ds names xn invariant assume [D N DI W X I A] s t S T. split; [apply assign_there; auto|]. intros u U. split.
  - apply (assign_loop_ok ds names N D); auto.
  - apply (assign_diff ds names N DI W s t u T). apply (ok_length ds). auto.
Qed.
Print Assumptions C82_line_leads_there.

(** Whatever is typed after "assign", every variable keeps a value of its domain. *)
Theorem C82_any_text_keeps_domains : forall ds names xn invariant assume, simulated ds names xn invariant assume ->
  forall line s, ok ds s -> ok ds (assign ds names line s).
Proof. intros ds names xn invariant assume [D N DI W X I A] line s S. apply (assign_loop_ok ds names N D); auto. Qed.
Print Assumptions C82_any_text_keeps_domains.

(** Assignments [x[i] := n;] are done from left to right; a value outside of the domain counts modulo
    its size. *)
Theorem C82_assignments : forall ds names xn invariant assume, simulated ds names xn invariant assume ->
  forall items, Forall (fun p => fst p < List.length ds) items -> forall s, ok ds s ->
  assign ds names (join_with [c_space] (map (fun p => name_of names (fst p) ++ [c_colon; c_eq] ++ dec (snd p) ++ [c_semi]) items)) s
  = fold_left (fun u p => upd u (fst p) (snd p mod nth (fst p) ds 0)) items s.
Proof. intros ds names xn invariant assume [D N DI W X I A] items F s S. apply assign_items; auto. Qed.
Print Assumptions C82_assignments.

(** C83: for every sequence of commands and every command after it, the simulator answers, its state
    stays in the domains, and the answer is the one specified, for the states that the predicate
    commands so far restrict it to. *)
Theorem C83_sessions : forall ds names xn invariant assume, simulated ds names xn invariant assume ->
  forall cs c, Forall (fair_command ds) (cs ++ [c]) ->
  (Exists uses_cycle (cs ++ [c]) -> assume_closed ds xn assume /\ xn <> Cst true) ->
  exists s os s' o,
    session ds names xn invariant assume (start ds assume) cs = Some (s, os) /\
    session ds names xn invariant assume (start ds assume) (cs ++ [c]) = Some (s', os ++ [o]) /\
    ok ds (s_state s) /\ ok ds (s_state s') /\
    answer ds names xn invariant assume (fun n => wish n (rev cs)) (allowed ds xn invariant assume (rev cs)) (s_state s) c o (s_state s').
Proof.
  intros ds names xn invariant assume SIM cs c F CY. apply Forall_app in F. destruct F as (F & FC). inversion FC as [|? ? FC1 _]; subst.
  destruct (session_inv ds names xn invariant assume SIM cs F) as (s & os & E & L & V). { intros H. apply CY, Exists_app. auto. }
  destruct (exec_spec ds names xn invariant assume SIM (rev cs) s c V FC1) as (s' & o & X & V' & AN).
  { intros H. apply CY. apply Exists_app. inversion H as [? ? U|? ? U]; subst; [right; left; auto|]. left. apply Exists_rev in U. rewrite rev_involutive in U. auto. }
  exists s, os, s', o. split; auto. split.
  - rewrite session_app, E. cbn [session]. rewrite X. reflexivity.
  - split; [apply V|]. split; [apply V'|auto].
Qed.
Print Assumptions C83_sessions.

(** A random step can go to every offered state. *)
Theorem C83_every_option_possible : forall ds names xn invariant assume, simulated ds names xn invariant assume ->
  forall cs, Forall (fair_command ds) cs -> (Exists uses_cycle cs -> assume_closed ds xn assume /\ xn <> Cst true) ->
  forall s os, session ds names xn invariant assume (start ds assume) cs = Some (s, os) ->
  forall forward t, offered ds xn forward (allowed ds xn invariant assume (rev cs)) (s_state s) t ->
  exists rnd s', exec ds names xn invariant assume s (Step forward 1 rnd) = Some (s', Lines [diff_line ds names (s_state s) t]) /\ s_state s' = t.
Proof.
  intros ds names xn invariant assume SIM cs F CY s os E forward t T.
  destruct (session_inv ds names xn invariant assume SIM cs F CY) as (s0 & os0 & E0 & L & V). rewrite E0 in E. injection E as -> ->.
  destruct (step_any ds names xn invariant assume SIM (rev cs) s forward (s_state s) t V (iv_state _ _ _ _ _ _ V) T) as (rnd & X).
  exists rnd. cbn [exec]. rewrite X. cbn [option_map fst snd]. eexists. split; reflexivity.
Qed.
Print Assumptions C83_every_option_possible.

(** C84: randomize can reach every state of the mask. *)
Theorem C84_every_state_possible : forall ds names xn invariant assume, simulated ds names xn invariant assume ->
  forall cs, Forall (fair_command ds) cs -> (Exists uses_cycle cs -> assume_closed ds xn assume /\ xn <> Cst true) ->
  forall s os, session ds names xn invariant assume (start ds assume) cs = Some (s, os) ->
  forall order, Permutation order (seq 0 (List.length ds)) ->
  forall t, ok ds t -> allowed ds xn invariant assume (rev cs) t ->
  exists rnd s', exec ds names xn invariant assume s (Randomize order rnd) = Some (s', Lines []) /\ s_state s' = t.
Proof.
  intros ds names xn invariant assume SIM cs F CY s os E order P t T A.
  destruct (session_inv ds names xn invariant assume SIM cs F CY) as (s0 & os0 & E0 & L & V). rewrite E0 in E. injection E as -> ->.
  destruct (randomize_any ds names xn invariant assume SIM (rev cs) s order (s_state s) t V (iv_state _ _ _ _ _ _ V) P T A) as (rnd & X).
  exists rnd. cbn [exec]. rewrite X. eexists. split; reflexivity.
Qed.
Print Assumptions C84_every_state_possible.

(** When no two offered states change the same variable, sstep does all the offered changes at once. *)
Theorem C84_sstep_does_all : forall ds names xn invariant assume, simulated ds names xn invariant assume ->
  forall mask, state_fmla ds mask -> forall s, ok ds s ->
  (forall v t t', offered ds xn true (holds mask) s t -> offered ds xn true (holds mask) s t' ->
    nth v t 0 <> nth v s 0 -> nth v t' 0 <> nth v s 0 -> t = t') ->
  exists ls u, sstep_loop ds names xn mask 1 s = Some (ls, u) /\ ok ds u /\
  forall v, v < List.length ds ->
  (forall t, offered ds xn true (holds mask) s t -> nth v t 0 <> nth v s 0 -> nth v u 0 = nth v t 0) /\
  ((forall t, offered ds xn true (holds mask) s t -> nth v t 0 = nth v s 0) -> nth v u 0 = nth v s 0).
Proof.
  intros ds names xn invariant assume SIM mask M s S DISJ. destruct SIM as [D N DI W X I A] eqn:ES.
  destruct (next_states_spec ds D xn X true s mask S M) as (l & E & ND & H). cbn [sstep_loop]. unfold next_options. rewrite E. cbn [option_map]. rewrite map_length.
  destruct (List.length l =? 0) eqn:Z.
  - apply Nat.eqb_eq in Z. destruct l; [|discriminate]. exists [], s. split; auto. split; auto. intros v V. split; auto. intros t T. apply H in T. destruct T.
  - assert (F : Forall (ok ds) l) by (apply Forall_forall; intros t T; apply H in T; apply T).
    destruct (fold_lines ds names xn invariant assume SIM s l s F S) as (O & K). do 2 eexists. split; [reflexivity|]. cbn [snd]. split; auto.
    intros v V. specialize (K v V). cbn zeta in K. destruct K as [(K1 & K2)|(t & T & NE & K2)].
    + split; auto. intros t T NE. exfalso. apply NE, K1. apply H. auto.
    + split.
      * intros t' T' NE'. replace t' with t; auto. apply (DISJ v); auto. apply H. auto.
      * intros C. exfalso. apply NE, C. apply H. auto.
Qed.
Print Assumptions C84_sstep_does_all.

(** Examples.  Two variables [x[0]] and [x[1]] of size two; each may go from 0 to 1, and the
    assumption is that they are not both 1. *)
Definition ex_names : list (text * nat) := [(list_ascii_of_string "x", 0); (list_ascii_of_string "x", 1)].
Definition two : list nat := [2; 2].
Definition keep (j : nat) : fmla :=
  or_PFmla (and_PFmla (eqc_PFmlaVbl two j 0) (img_eqc_PFmlaVbl two j 0)) (and_PFmla (eqc_PFmlaVbl two j 1) (img_eqc_PFmlaVbl two j 1)).
Definition up (j : nat) : fmla := and_PFmla (and_PFmla (eqc_PFmlaVbl two j 0) (img_eqc_PFmlaVbl two j 1)) (keep (1 - j)).
Definition ex_xn : fmla := or_PFmla (up 0) (up 1).
Definition ex_assume : fmla := not_PFmla (and_PFmla (eqc_PFmlaVbl two 0 1) (eqc_PFmlaVbl two 1 1)).
Definition ex_inv : fmla := eqc_PFmlaVbl two 0 1.

Definition every (ds : list nat) (P : list nat -> bool) : bool := forallb P (assignments ds).
Lemma every_ok : forall ds P, every ds P = true -> forall s, ok ds s -> P s = true.
Proof. intros ds P H s S. unfold every in H. rewrite forallb_forall in H. apply H. apply in_assignments. auto. Qed.
Lemma by_state_check : forall ds f, every ds (fun p => every ds (fun a => every ds (fun i => Bool.eqb (FmlaModel.eval f (join a i p)) (FmlaModel.eval f (join p p p))))) = true -> state_fmla ds f.
Proof.
  intros ds f H. apply state_of_eval. intros a i p A I P. apply (every_ok ds _ H p) in P as H1. apply (every_ok ds _ H1 a) in A as H2.
  apply (every_ok ds _ H2 i) in I as H3. apply Bool.eqb_prop in H3. auto.
Qed.
Lemma by_trans_check : forall ds f, every ds (fun p => every ds (fun a => every ds (fun i => Bool.eqb (FmlaModel.eval f (join a i p)) (FmlaModel.eval f (join p i p))))) = true -> trans_fmla ds f.
Proof.
  intros ds f H. assert (K : forall a i p, ok ds a -> ok ds i -> ok ds p -> FmlaModel.eval f (join a i p) = FmlaModel.eval f (join p i p)).
  { intros a i p A I P. apply (every_ok ds _ H p) in P as H1. apply (every_ok ds _ H1 a) in A as H2.
    apply (every_ok ds _ H2 i) in I as H3. apply Bool.eqb_prop in H3. auto. }
  intros a a' i p A A' I P. unfold meaning. rewrite (K a i p), (K a' i p); auto. tauto.
Qed.
Lemma ex_names_ok : NoDup ex_names /\ Forall (fun b => Forall word_char (fst b)) ex_names.
Proof.
  split.
  - constructor; [|constructor; [intros []|constructor]]. intros [E|[]]. discriminate.
  - repeat constructor; unfold word_char; cbn; lia.
Qed.
Lemma ex_simulated : simulated two ex_names ex_xn ex_inv ex_assume.
Proof.
  destruct ex_names_ok as (ND & W). split; auto.
  - repeat constructor.
  - apply by_trans_check. vm_compute. reflexivity.
  - apply by_state_check. vm_compute. reflexivity.
  - apply by_state_check. vm_compute. reflexivity.
Qed.
Example C82_options_example : simulated two ex_names ex_xn ex_inv ex_assume /\ state_fmla two ex_assume /\ ok two [0; 0] /\
  option_map (map string_of_list_ascii) (next_options two ex_names ex_xn true [0; 0] ex_assume) = Some ["x[0]:=1;"%string; "x[1]:=1;"%string] /\
  next_options two ex_names ex_xn true [1; 0] ex_assume = Some [] /\
  option_map (map string_of_list_ascii) (next_options two ex_names ex_xn false [1; 1] ex_assume) = Some ["x[0]:=0;"%string; "x[1]:=0;"%string].
Proof.
  split; [apply ex_simulated|]. split; [apply (si_assume _ _ _ _ _ ex_simulated)|]. split; [repeat constructor|]. vm_compute. auto.
Qed.
Example C82_assignments_example :
  assign two ex_names (list_ascii_of_string "x[0]:=3; x[1]:=4;") [0; 1] = [1; 0] /\
  assign two ex_names (list_ascii_of_string " x[1] = 1; x[0]=-1 y") [0; 0] = [1; 1] /\
  string_of_list_ascii (join_with [c_space] (map (fun p => name_of ex_names (fst p) ++ [c_colon; c_eq] ++ dec (snd p) ++ [c_semi]) [(0, 3); (1, 4)]))
    = "x[0]:=3; x[1]:=4;"%string.
Proof. vm_compute. auto. Qed.
(** A session with all kinds of commands, and what it prints at the end. *)
Definition ex_commands : list command :=
  [Predicate PInvariant NotInPredicate; Predicate PSilent DisplayPredicate; ShowImg; Step true 5 (fun _ => 0); ShowSat;
   Randomize [1; 0] (fun _ => 1); Predicate PInvariant IgnorePredicate; SStep 2; Assign (list_ascii_of_string "x[0]:=0"); ShowPre].
Example C83_session_example : Forall (fair_command two) (ex_commands ++ [ShowSat]) /\ ~ Exists uses_cycle (ex_commands ++ [ShowSat]) /\
  match session two ex_names ex_xn ex_inv ex_assume (start two ex_assume) (ex_commands ++ [ShowSat]) with
  | Some (s, os) => s_state s = [0; 1] /\ nth 4 os (Lines []) = Sat [(PInvariant, false); (PSilent, false)] /\ nth 10 os (Lines []) = Sat [(PSilent, false)]
  | None => False
  end.
Proof.
  split.
  - repeat constructor.
  - split; [|vm_compute; auto]. intros H. repeat (inversion H as [? ? U|? ? U]; subst; clear H; [destruct U|rename U into H]). inversion H.
Qed.

(** The claim that "assign" reads what "show-state" prints is false: such a line changes nothing. *)
Theorem C82_state_lines_refuted : forall ds names xn invariant assume, simulated ds names xn invariant assume ->
  forall v x s, v < List.length ds -> assign ds names (name_of names v ++ [c_eq; c_eq] ++ dec x) s = s.
Proof. intros ds names xn invariant assume [D N DI W X I A] v x s V. apply state_line_ignored; auto. Qed.
Print Assumptions C82_state_lines_refuted.

(** The claim that every command ends is false: when the assumption is not closed, "predicate cycle"
    may not.  Here one variable goes between 0 and 1, and the assumption is that it is 0. *)
Definition toggle : fmla :=
  or_PFmla (and_PFmla (eqc_PFmlaVbl [2] 0 0) (img_eqc_PFmlaVbl [2] 0 1)) (and_PFmla (eqc_PFmlaVbl [2] 0 1) (img_eqc_PFmlaVbl [2] 0 0)).
Definition is_zero : fmla := eqc_PFmlaVbl [2] 0 0.
Lemma toggle_trans : trans_fmla [2] toggle.
Proof. apply by_trans_check. vm_compute. reflexivity. Qed.
Lemma ok_2 : forall s, ok [2] s -> s = [0] \/ s = [1].
Proof. intros s H. inversion H as [|x ? ? ? X H' ]; subst. inversion H'; subst. destruct x as [|[|x]]; auto. lia. Qed.
Lemma toggle_steps : forall s t, ok [2] s -> ok [2] t -> (FmlaSpec.steps toggle s t <-> s <> t).
Proof.
  intros s t S T. apply ok_2 in S, T. destruct S as [-> | ->], T as [-> | ->]; unfold FmlaSpec.steps, meaning; vm_compute; split; congruence.
Qed.
Theorem C83_cycle_may_not_end_refuted :
  simulated [2] [(list_ascii_of_string "x", 0)] toggle is_zero is_zero /\
  exec [2] [(list_ascii_of_string "x", 0)] toggle is_zero is_zero (start [2] is_zero) (Predicate PCycle DisplayPredicate) = None /\
  forall fuel, fwd_loop [2] fuel toggle is_zero = None.
Proof.
  assert (SI : state_fmla [2] is_zero) by (apply by_state_check; vm_compute; reflexivity). split.
  - split; auto; [repeat constructor| | |apply toggle_trans].
    + constructor; [intros []|constructor].
    + apply Forall_cons; [|apply Forall_nil]. apply Forall_cons; [|apply Forall_nil]. unfold word_char. cbn. lia.
  - split; [vm_compute; reflexivity|].
    assert (O0 : ok [2] [0]) by (repeat constructor). assert (O1 : ok [2] [1]) by (repeat constructor).
    assert (NT : toggle <> Cst true) by discriminate.
    assert (K : forall fuel f, state_fmla [2] f -> (holds f [0] <-> ~ holds f [1]) -> fwd_loop [2] fuel toggle f = None).
    { induction fuel as [|fuel IH]; intros f F H; auto. cbn [fwd_loop].
      assert (SW : forall s t, ok [2] s -> ok [2] t -> s <> t -> (holds (img1_PFmla [2] toggle f) t <-> holds f s)).
      { intros s t S T NE. rewrite (img1_state [2]); auto; [|apply toggle_trans|intros (C & _); contradiction]. split.
        - intros (s' & S' & X & HS). apply toggle_steps in X; auto. replace s with s'; auto. apply ok_2 in S', S, T.
          destruct S' as [-> | ->], S as [-> | ->], T as [-> | ->]; congruence.
        - intros HS. exists s. split; auto. split; auto. apply toggle_steps; auto. }
      pose proof (SW [1] [0] O1 O0 ltac:(discriminate)) as A0. pose proof (SW [0] [1] O0 O1 ltac:(discriminate)) as A1.
      destruct (equiv_ck [2] f (img1_PFmla [2] toggle f)) eqn:E.
      - exfalso. assert (INH : inhabited [2]) by (repeat constructor). pose proof (proj1 (equiv_iff [2] INH _ _) E) as E1. clear E. pose proof (E1 [0] [0] [0] O0 O0 O0) as E.
        assert (E' : holds f [0] <-> holds (img1_PFmla [2] toggle f) [0]) by (unfold holds, meaning; rewrite E; tauto). tauto.
      - assert (DEC : holds f [1] \/ ~ holds f [1]) by (unfold holds, meaning; destruct (FmlaModel.eval f _); auto). apply IH; [apply img1_static; auto; apply toggle_trans|tauto]. }
    intros fuel. apply K; auto. unfold holds, meaning. vm_compute. split; [intros _; discriminate|auto].
Qed.
Print Assumptions C83_cycle_may_not_end_refuted.
(** The hypotheses of [C83_sessions] for that command can be met. *)
Example C83_cycle_example : assume_closed [2] toggle (Cst true) /\ toggle <> Cst true /\
  match session [2] [(list_ascii_of_string "x", 0)] toggle is_zero (Cst true) (start [2] (Cst true)) [Predicate PCycle DisplayPredicate; ShowSat] with
  | Some (_, os) => os = [Lines []; Sat [(PCycle, true)]]
  | None => False
  end.
Proof. split; [intros s t _ _ _ _; reflexivity|]. split; [discriminate|]. vm_compute. reflexivity. Qed.

(** The claims that the simulator starts, and that sstep stays, in the states it is restricted to
    are both false. *)
Theorem C83_start_refuted : exists ds names xn invariant assume, simulated ds names xn invariant assume /\
  (exists s, ok ds s /\ holds assume s) /\ ~ holds assume (s_state (start ds assume)).
Proof.
  exists two, ex_names, ex_xn, ex_inv, ex_inv. split.
  - destruct ex_simulated. split; auto.
  - split; [exists [1; 0]; split; [repeat constructor|vm_compute; reflexivity]|]. unfold holds, meaning. vm_compute. discriminate.
Qed.
Print Assumptions C83_start_refuted.
Theorem C84_sstep_leaves_refuted : exists ds names xn invariant assume, simulated ds names xn invariant assume /\
  holds assume (s_state (start ds assume)) /\
  exists s' o, exec ds names xn invariant assume (start ds assume) (SStep 1) = Some (s', o) /\ ~ holds assume (s_state s').
Proof.
  exists two, ex_names, ex_xn, ex_inv, ex_assume. split; [apply ex_simulated|]. split; [vm_compute; reflexivity|].
  eexists _, _. split; [vm_compute; reflexivity|]. unfold holds, meaning. vm_compute. discriminate.
Qed.
Print Assumptions C84_sstep_leaves_refuted.
Example C84_example : (forall v t t', offered two ex_xn true (holds ex_assume) [0; 0] t -> offered two ex_xn true (holds ex_assume) [0; 0] t' ->
    nth v t 0 <> nth v [0; 0] 0 -> nth v t' 0 <> nth v [0; 0] 0 -> t = t') /\
  option_map snd (sstep_loop two ex_names ex_xn ex_assume 1 [0; 0]) = Some [1; 1] /\
  Permutation [1; 0] (seq 0 (List.length two)) /\ allowed two ex_xn ex_inv ex_assume [] [1; 0] /\
  randomize_state two [1; 0] (fun _ => 1) ex_assume [0; 0] = Some [0; 1] /\
  randomize_state two [1; 0] (fun k => k + 1) ex_assume [0; 0] = Some [1; 0].
Proof.
  split; [|split; [vm_compute; reflexivity|]; split; [apply perm_swap|]; split; [split; [vm_compute; reflexivity|intros n; exact I]|vm_compute; auto]].
  assert (K : forall t, offered two ex_xn true (holds ex_assume) [0; 0] t -> t = [1; 0] \/ t = [0; 1]).
  { intros t (T & N & X & M). inversion T as [|x ? ? ? X1 T1]; subst. inversion T1 as [|y ? ? ? Y1 T2]; subst. inversion T2; subst.
    destruct x as [|[|x]]; [| |lia]; (destruct y as [|[|y]]; [| |lia]); auto; [contradiction|]. exfalso. revert M. unfold holds, meaning. vm_compute. discriminate. }
  intros v t t' H1 H2 N1 N2. apply K in H1, H2. destruct H1 as [-> | ->], H2 as [-> | ->]; auto; destruct v as [|[|v]]; cbn in *; try contradiction; destruct v; contradiction.
Qed.
