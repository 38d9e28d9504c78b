(** C77 and C78, continued: actions and assumptions; examples; what does not hold. *)
From Coq Require Import NArith.
From Verif Require Import UdpModel UdpSpec.
From Coq Require Import List Arith Bool Lia.
From Verif Require Import FinLib Radix FmlaModel FmlaSpec ActModel ActSpec ActProps NetModel NetSpec NetProps SyncProofs UgenModel UgenProofs UgenSpec UgenProofs2 UgenProofs3 UgenProofs4 UgenProofs5 UgenProofs6 UgenProofs7 UgenProps.
Import ListNotations.

(** ** C78: actions and assumptions *)
(** Generation ends, and fails only if a process cannot make its assumption true by one
    assignment that works for all values of the variables it cannot write. *)
Theorem C78_generated : forall T O lw actions fuel, net_ok T -> net_ok O -> same_protocol T O -> proper_actions T actions ->
  2 * length (assignments (vdoms T)) < fuel ->
  (gen_udp_file fuel lw T O actions = None <->
   exists k j q, pattern T k j q /\
     forall u, FmlaSpec.ok (vdoms T) u -> exists w, FmlaSpec.ok (vdoms T) w /\ same_but_given T q w u /\ ~ holds (p_assume q) w).
Proof. intros T O lw actions fl HT HO SP ACTS FL. exact (generated T O lw actions HT ACTS fl FL). Qed.
Print Assumptions C78_generated.

(** action_assign of process i: with suitable random numbers it makes y of x exactly if the process
    of [T] that the code was made from can. *)
Theorem C78_actions_exact : forall T O lw actions fuel F, net_ok T -> net_ok O -> same_protocol T O -> proper_actions T actions ->
  2 * length (assignments (vdoms T)) < fuel -> gen_udp_file fuel lw T O actions = Some F ->
  forall i p, nth_error (pcs O) i = Some p ->
  exists j q, pattern T (p_kind p) j q /\ NoDup (p_vbls q) /\
    forall x, fits (its_kind O p) x -> forall y,
    ((exists rs, exec_action (f_action F) i rs x = y) <-> action_result T lw actions j q x y).
Proof.
  intros T O lw actions fl F HT HO SP ACTS FL G i p Hp. destruct (used_pattern T O HT SP p (nth_error_In _ _ Hp)) as (j & q & P & ND & _).
  exists j, q. split; auto. split; auto. intros x Hx y. exact (action_code T O lw actions HT HO SP ACTS fl F FL G i p j q Hp P x Hx y).
Qed.
Print Assumptions C78_actions_exact.

(** Without shadow variables and randomness that is what process i itself can do in [O]. *)
Theorem C78_actions_of_process : forall T O actions fuel F, net_ok T -> net_ok O -> same_protocol T O -> proper_actions T actions ->
  2 * length (assignments (vdoms T)) < fuel -> gen_udp_file fuel true T O actions = Some F -> plain_kinds (kinds T) ->
  forall i p, nth_error (pcs O) i = Some p -> NoDup (p_vbls p) ->
  forall x, fits (its_kind O p) x -> forall y,
  ((exists rs, exec_action (f_action F) i rs x = y) <->
   (can_do O true actions i p x y /\ y <> x) \/
   (y = x /\ forall z, can_do O true actions i p x z -> z = x)).
Proof.
  intros T O actions fl F HT HO SP ACTS FL G PL i p Hp NDp x Hx y.
  destruct (C78_actions_exact T O true actions fl F HT HO SP ACTS FL G i p Hp) as (j & q & P & ND & E). rewrite (E x Hx y).
  destruct P as (P1 & P2 & _). rewrite (result_kind T O actions HT HO (sp_kinds _ _ SP) PL ACTS j q i p P1 Hp P2 ND NDp x y Hx).
  assert (PLO : plain_kinds (kinds O)) by (rewrite <- (sp_kinds _ _ SP); auto).
  split.
  - intros (x' & R & H). apply (redrawn_same O HO PLO p) in R; auto. subst x'.
    destruct H as [H|[(H1 & H2 & H3)|(H1 & H2)]]; auto; right. split; auto. intros z Z. exfalso. apply (H2 z Z).
  - intros H. assert (R : redrawn O p x x) by (apply (redrawn_same O HO PLO p); auto). 
    destruct H as [H|(-> & H)]; [exists x; auto|].
    destruct (C78_actions_exact T O true actions fl F HT HO SP ACTS FL G i p Hp) as (j' & q' & P' & ND' & E').
    destruct P' as (P1' & P2' & _).
    assert (X : action_result O true actions i p x (exec_action (f_action F) i (fun _ => 0) x)).
    { rewrite <- (result_kind T O actions HT HO (sp_kinds _ _ SP) PL ACTS j' q' i p P1' Hp P2' ND' NDp x _ Hx). apply (E' x Hx). eauto. }
    destruct X as (x' & R' & X). apply (redrawn_same O HO PLO p) in R'; auto. subst x'. exists x. split; auto.
    destruct X as [(X1 & X2)|[(X1 & X2 & X3)|(X1 & X2)]]; [exfalso; apply X2; auto| |].
    + right. left. rewrite X2 in X1. auto.
    + right. right. auto.
Qed.
Print Assumptions C78_actions_of_process.

(** assume_assign: afterwards the assumption holds; if it held before nothing changes; only variables
    the process may write change. *)
Theorem C78_assume_fixes : forall T O lw actions fuel F, net_ok T -> net_ok O -> same_protocol T O -> proper_actions T actions ->
  2 * length (assignments (vdoms T)) < fuel -> gen_udp_file fuel lw T O actions = Some F ->
  forall i p, nth_error (pcs O) i = Some p ->
  exists j q, pattern T (p_kind p) j q /\ NoDup (p_vbls q) /\ (visible_assume T q ->
    forall x, fits (its_kind O p) x -> let y := exec_assume (f_assume F) i x in
    fits (its_kind O p) y /\ assumed T q y /\ (assumed T q x -> y = x) /\
    (forall m, m < length x -> ~ writes_cell O p m -> nth m y 0 = nth m x 0)).
Proof.
  intros T O lw actions fl F HT HO SP ACTS FL G i p Hp. destruct (used_pattern T O HT SP p (nth_error_In _ _ Hp)) as (j & q & P & ND & _).
  exists j, q. split; auto. split; auto. intros V x Hx. exact (assume_code T O lw actions HT HO SP fl F FL G i p j q Hp P ND V x Hx).
Qed.
Print Assumptions C78_assume_fixes.

(** ** Examples *)
(** Copying the left neighbour's bit, synthesised for two processes, printed for five. *)
Definition copier : pcsymm := declare [Plain (bit ReadAccess); Plain (bit WriteAccess)].
Definition ring2 : network := mkNetwork [2; 2] [Direct; Direct] [copier] [plain 0 [1; 0]; plain 0 [0; 1]].
Definition ring5 : network :=
  mkNetwork [2; 2; 2; 2; 2] [Direct; Direct; Direct; Direct; Direct] [copier]
    [plain 0 [4; 0]; plain 0 [0; 1]; plain 0 [1; 2]; plain 0 [2; 3]; plain 0 [3; 4]].
Definition copy_file : udp_file := match gen_udp_file 9 true ring2 ring5 [5; 2] with Some F => F | None => mkFile 0 0 0 [] [] [] [] [] end.

Lemma copier_laid : forall k, In k [copier] -> laid_out k.
Proof. intros k [<-|[]]. apply C40_declared_processes. intros n vs [H|[H|[]]]; discriminate. Qed.
Lemma ring2_ok : net_ok ring2.
Proof.
  apply plain_ok; [repeat constructor|apply copier_laid|].
  intros p [<-|[<-|[]]]; eexists 0, _; (split; [reflexivity|]); (split; [cbn; lia|]); (split; [reflexivity|]);
    intros [|[|i]] Hi; cbn in *; repeat split; lia.
Qed.
Lemma ring5_ok : net_ok ring5.
Proof.
  apply plain_ok; [repeat constructor|apply copier_laid|].
  intros p [<-|[<-|[<-|[<-|[<-|[]]]]]]; eexists 0, _; (split; [reflexivity|]); (split; [cbn; lia|]); (split; [reflexivity|]);
    intros [|[|i]] Hi; cbn in *; repeat split; lia.
Qed.
Ltac distinct_list := repeat (constructor; [cbn; intuition discriminate|]); constructor.
Lemma copies_same : same_protocol ring2 ring5.
Proof.
  split; [reflexivity| |].
  - intros i i' p p' _ H H'. apply nth_error_In in H, H'. cbn in H, H'. intuition subst; auto.
  - intros p H. exists (plain 0 [1; 0]). split; [cbn; auto|]. split; [|cbn; distinct_list]. cbn in H. intuition subst; auto.
Qed.
Lemma copies_proper : proper_actions ring2 [5; 2].
Proof. intros a [<-|[<-|[]]]; (split; [cbn; lia|reflexivity]). Qed.
Lemma copies_generated : gen_udp_file 9 true ring2 ring5 [5; 2] = Some copy_file.
Proof. vm_compute. reflexivity. Qed.
Lemma ring5_separate : separate ring5.
Proof. intros p H. cbn in H. destruct H as [<-|[<-|[<-|[<-|[<-|[]]]]]]; cbn; distinct_list. Qed.
Lemma ring5_sole : sole_writer ring5.
Proof.
  assert (W : forall i v, writes_var ring5 i v -> v = i).
  { intros i v (p & m & Hp & E & X). do 5 (destruct i as [|i]; [cbn in Hp; injection Hp as <-; destruct m as [|[|m]];
      [exfalso; destruct X as [X|[X|[X|X]]]; discriminate|cbn in E; congruence|destruct m; discriminate]|]). destruct i; discriminate. }
  intros i i' v H H'. apply W in H, H'. congruence.
Qed.
Lemma ring2_steady : forall q v, In q (pcs ring2) -> In v (screen ring2 q) -> ~ fickle ring2 v.
Proof.
  intros q v _ _ (p & i & Hp & L & A & _). cbn in Hp. destruct Hp as [<-|[<-|[]]]; cbn in L; (destruct i as [|[|i]]; [| |lia]); discriminate.
Qed.
Lemma ring2_visible : forall q, In q (pcs ring2) -> visible_assume ring2 q.
Proof. intros q H s t _ _ _. cbn in H. destruct H as [<-|[<-|[]]]; cbn; reflexivity. Qed.

Example C77_example :
  net_ok ring2 /\ net_ok ring5 /\ same_protocol ring2 ring5 /\ proper_actions ring2 [5; 2] /\
  2 * length (assignments (vdoms ring2)) < 9 /\ gen_udp_file 9 true ring2 ring5 [5; 2] = Some copy_file /\
  separate ring5 /\ sole_writer ring5 /\
  (forall q v, In q (pcs ring2) -> In v (screen ring2 q) -> ~ fickle ring2 v) /\ (forall q, In q (pcs ring2) -> visible_assume ring2 q) /\
  (forall draws coin steps, well_formed (mkSys 5 (iden_of copy_file draws) coin (peer_of copy_file) steps) (n_channels copy_file)) /\
  (* process 0 reads from process 4 on channel 0 and sends to process 1 on channel 1 *)
  n_channels copy_file 0 = 2 /\ peer_of copy_file 0 0 = (4, 1) /\ peer_of copy_file 0 1 = (1, 0) /\
  exec_variable_of_channel (f_variable_of_channel copy_file) 2 0 0 0 false = 0 /\
  exec_variable_of_channel (f_variable_of_channel copy_file) 2 4 1 0 true = 1.
Proof.
  repeat (split; [first [apply ring2_ok|apply ring5_ok|apply copies_same|apply copies_proper|vm_compute; lia|apply copies_generated|apply ring5_separate
    |apply ring5_sole|apply ring2_steady|apply ring2_visible]|]).
  split; [|vm_compute; repeat split; reflexivity]. intros draws coin steps.
  assert (FL : 2 * length (assignments (vdoms ring2)) < 9) by (vm_compute; lia).
  exact (C77_runtime ring2 ring5 true [5; 2] 9 copy_file ring2_ok ring5_ok copies_same copies_proper FL copies_generated ring2_steady ring2_visible ring5_separate ring5_sole draws coin steps).
Qed.

Example C78_example :
  plain_kinds (kinds ring2) /\ (forall p, In p (pcs ring5) -> NoDup (p_vbls p)) /\
  (* process 3 sees its neighbour's 1 and copies it; it leaves equal bits alone *)
  fits copier [1; 0] /\ (forall rs, exec_action (f_action copy_file) 3 rs [1; 0] = [1; 1]) /\
  (forall rs, exec_action (f_action copy_file) 3 rs [1; 1] = [1; 1]).
Proof.
  split; [|split; [|split; [|split]]].
  - intros k a [<-|[]] H. cbn in H. destruct H as [<-|[<-|[]]]; repeat split; discriminate.
  - intros p H. cbn in H. destruct H as [<-|[<-|[<-|[<-|[<-|[]]]]]]; cbn; distinct_list.
  - repeat constructor.
  - intros rs. vm_compute. reflexivity.
  - intros rs. vm_compute. reflexivity.
Qed.

(** An assumption that one assignment repairs: own bit 0 or left bit 0; the code clears the own bit. *)
Definition never_both (p0 : nat * nat) : process :=
  mkProcess 0 [fst p0; snd p0] (not_PFmla (and_PFmla (eqc_PFmlaVbl [2; 2] (fst p0) 1) (eqc_PFmlaVbl [2; 2] (snd p0) 1)))
    (Cst false) (Cst false) (Cst false) (Cst false).
Definition shy2 : network := mkNetwork [2; 2] [Direct; Direct] [copier] [never_both (1, 0); never_both (0, 1)].
Definition shy_file : udp_file := match gen_udp_file 9 true shy2 shy2 [] with Some F => F | None => mkFile 0 0 0 [] [] [] [] [] end.
Ltac two l := match goal with H : FmlaSpec.ok _ l |- _ =>
  apply Forall2_nth_iff in H; destruct H as (H & _); destruct l as [|? [|? [|]]]; try discriminate H end.
Lemma shy2_ok : net_ok shy2.
Proof.
  split; cbn [vdoms vroles kinds pcs shy2].
  - repeat constructor.
  - intros p [<-|[<-|[]]]; cbn; lia.
  - intros p [<-|[<-|[]]]; reflexivity.
  - intros p i [<-|[<-|[]]] Hi; cbn in Hi; (destruct i as [|[|i]]; [| |lia]); cbn; repeat split; lia.
  - apply copier_laid.
  - intros p [<-|[<-|[]]]; intros a i a' i' q A1 A2 A3 A4 A5; two a; two i; two a'; two i'; two q; vm_compute; split; intros X; exact X.
  - intros p Hp f Hf. assert (E : f = Cst false) by (destruct Hp as [<-|[<-|[]]]; cbn in Hf; intuition). subst f. split.
    + intros a a' i q _ _ _ _. cbn. tauto.
    + intros a i i' q _ _ _ _ _. cbn. tauto.
Qed.
Lemma shy2_visible : forall q, In q (pcs shy2) -> visible_assume shy2 q.
Proof.
  intros q Hq s t Hs Ht E. assert (X : s = t); [|rewrite X; reflexivity].
  apply Forall2_nth_iff in Hs, Ht. destruct Hs as (Ls & _). destruct Ht as (Lt & _). cbn in Ls, Lt.
  destruct s as [|a [|b [|]]]; try discriminate Ls. destruct t as [|c [|d [|]]]; try discriminate Lt.
  destruct Hq as [<-|[<-|[]]]; cbn in E; congruence.
Qed.
Example C78_assume_example :
  net_ok shy2 /\ same_protocol shy2 shy2 /\ proper_actions shy2 [] /\ (forall q, In q (pcs shy2) -> visible_assume shy2 q) /\
  2 * length (assignments (vdoms shy2)) < 9 /\ gen_udp_file 9 true shy2 shy2 [] = Some shy_file /\
  exec_assume (f_assume shy_file) 1 [1; 1] = [1; 0] /\ exec_assume (f_assume shy_file) 1 [0; 1] = [0; 1].
Proof.
  split; [apply shy2_ok|]. split; [|split; [intros a []|split; [apply shy2_visible|split; [vm_compute; lia|vm_compute; repeat split; reflexivity]]]].
  split; [reflexivity| |].
  - intros i i' p p' _ H H'. apply nth_error_In in H, H'. cbn in H, H'. intuition subst; auto.
  - intros p H. exists p. split; auto. split; auto. cbn in H. destruct H as [<-|[<-|[]]]; cbn; distinct_list.
Qed.

(** ** What does not hold *)
(** Refuted: "if a process can repair its assumption in every state, code is generated".  With the
    assumption that both bits are equal the process would have to look at the other bit. *)
Definition both_equal (p0 : nat * nat) : process :=
  mkProcess 0 [fst p0; snd p0]
    (or_PFmla (and_PFmla (eqc_PFmlaVbl [2; 2] (fst p0) 1) (eqc_PFmlaVbl [2; 2] (snd p0) 1))
              (and_PFmla (eqc_PFmlaVbl [2; 2] (fst p0) 0) (eqc_PFmlaVbl [2; 2] (snd p0) 0)))
    (Cst false) (Cst false) (Cst false) (Cst false).
Definition equal2 : network := mkNetwork [2; 2] [Direct; Direct] [copier] [both_equal (1, 0); both_equal (0, 1)].
Theorem C78_repairable_refuted : exists T,
  (forall q s, In q (pcs T) -> FmlaSpec.ok (vdoms T) s -> exists t, FmlaSpec.ok (vdoms T) t /\ holds (p_assume q) t /\
     forall v, v < length (vdoms T) -> ~ own T q v -> nth v t 0 = nth v s 0) /\
  forall fuel, gen_udp_file fuel true T T [] = None.
Proof.
  exists equal2. split.
  - intros q s Hq Hs. apply Forall2_nth_iff in Hs. destruct Hs as (L & Hs). cbn in L. destruct s as [|a [|b [|]]]; try discriminate L.
    pose proof (Hs 0 ltac:(cbn; lia)) as A. pose proof (Hs 1 ltac:(cbn; lia)) as B. cbn in A, B.
    assert (OK : forall c, c < 2 -> FmlaSpec.ok [2; 2] [c; c]) by (intros c C; constructor; [exact C|constructor; [exact C|constructor]]).
    cbn in Hq. destruct Hq as [<-|[<-|[]]].
    + exists [b; b]. split; [apply OK; auto|]. split; [destruct b as [|[|b]]; [vm_compute; reflexivity|vm_compute; reflexivity|lia]|].
      intros [|[|v]] V NO; cbn in *; auto; try lia. exfalso. apply NO. exists 1. cbn. split; [lia|]. split; [left; reflexivity|reflexivity].
    + exists [a; a]. split; [apply OK; auto|]. split; [destruct a as [|[|a]]; [vm_compute; reflexivity|vm_compute; reflexivity|lia]|].
      intros [|[|v]] V NO; cbn in *; auto; try lia. exfalso. apply NO. exists 1. cbn. split; [lia|]. split; [left; reflexivity|reflexivity].
  - intros fl. unfold gen_udp_file, per_kind. cbn [kinds equal2 length seq by_kind].
    assert (M : length (membs equal2 0) =? 0 = false) by reflexivity. rewrite M. cbn [all_some].
    assert (G : gen_assume_kind equal2 fl 0 = None).
    { unfold gen_assume_kind. assert (S : some_memb equal2 0 = Some (0, both_equal (1, 0))) by (vm_compute; reflexivity). rewrite S.
      assert (TA : tautology_ck (vdoms equal2) (p_assume (both_equal (1, 0))) = false) by (vm_compute; reflexivity). rewrite TA.
      assert (SC : sat_ck (vdoms equal2) (fixed_pf equal2 (both_equal (1, 0))) = false) by (vm_compute; reflexivity). rewrite SC. reflexivity. }
    rewrite G. reflexivity.
Qed.
Print Assumptions C78_repairable_refuted.

(** Refuted: "a process receives what other processes write to its variables".  Two processes write
    the same variable; the first one owns it, and what the second one writes is sent nowhere. *)
Definition writer : pcsymm := declare [Plain (bit WriteAccess)].
Definition two_writers : network := mkNetwork [2] [Direct] [writer] [plain 0 [0]; plain 0 [0]].
Lemma two_writers_ok : net_ok two_writers.
Proof.
  apply plain_ok; [repeat constructor| |].
  - intros k [<-|[]]. apply C40_declared_processes. intros n vs [H|[]]; discriminate.
  - intros p [<-|[<-|[]]]; eexists 0, _; (split; [reflexivity|]); (split; [cbn; lia|]); (split; [reflexivity|]);
      intros [|i] Hi; cbn in *; repeat split; lia.
Qed.
Theorem C77_two_writers_refuted : exists O F, net_ok O /\ separate O /\ gen_udp_file 5 true O O [] = Some F /\
  let voc := exec_variable_of_channel (f_variable_of_channel F) (f_nvariables F) in
  writes_var O 0 0 /\ writes_var O 1 0 /\ (exists k j, voc 1 k j false < f_nvariables F) /\
  forall k j, voc 1 k j true = f_nvariables F /\ voc 0 k j false = f_nvariables F.
Proof.
  eexists two_writers, _. split; [apply two_writers_ok|]. split; [intros p [<-|[<-|[]]]; cbn; distinct_list|]. split; [vm_compute; reflexivity|].
  cbv zeta. cbn [f_nvariables f_variable_of_channel]. split; [|split; [|split]].
  - exists (plain 0 [0]), 0. split; [reflexivity|]. split; [reflexivity|]. left. reflexivity.
  - exists (plain 0 [0]), 0. split; [reflexivity|]. split; [reflexivity|]. left. reflexivity.
  - exists 0, 0. vm_compute. lia.
  - intros k j. unfold exec_variable_of_channel, exec_chain, exec_lines. cbn. split; destruct k as [|k]; destruct j as [|j]; reflexivity.
Qed.
Print Assumptions C77_two_writers_refuted.

(** Refuted: "every copy a process keeps is fed by the process that writes the variable".  In a
    two-way ring of two processes both neighbours are the same process; the cell for the left one is
    never filled. *)
Definition looker : pcsymm := declare [Plain (bit ReadAccess); Plain (bit WriteAccess); Plain (bit ReadAccess)].
Definition biring3 : network := mkNetwork [2; 2; 2] [Direct; Direct; Direct] [looker] [plain 0 [2; 0; 1]; plain 0 [0; 1; 2]; plain 0 [1; 2; 0]].
Definition biring2 : network := mkNetwork [2; 2] [Direct; Direct] [looker] [plain 0 [1; 0; 1]; plain 0 [0; 1; 0]].
Lemma looker_laid : forall k, In k [looker] -> laid_out k.
Proof. intros k [<-|[]]. apply C40_declared_processes. intros n vs [H|[H|[H|[]]]]; discriminate. Qed.
Lemma biring3_ok : net_ok biring3.
Proof.
  apply plain_ok; [repeat constructor|apply looker_laid|].
  intros p [<-|[<-|[<-|[]]]]; eexists 0, _; (split; [reflexivity|]); (split; [cbn; lia|]); (split; [reflexivity|]);
    intros [|[|[|i]]] Hi; cbn in *; repeat split; lia.
Qed.
Lemma biring2_ok : net_ok biring2.
Proof.
  apply plain_ok; [repeat constructor|apply looker_laid|].
  intros p [<-|[<-|[]]]; eexists 0, _; (split; [reflexivity|]); (split; [cbn; lia|]); (split; [reflexivity|]);
    intros [|[|[|i]]] Hi; cbn in *; repeat split; lia.
Qed.
Theorem C77_seen_twice_refuted : exists T O F, net_ok T /\ net_ok O /\ same_protocol T O /\ sole_writer O /\
  gen_udp_file 17 true T O [] = Some F /\
  let voc := exec_variable_of_channel (f_variable_of_channel F) (f_nvariables F) in
  cell O 0 0 1 /\ writes_var O 1 1 /\ forall k j, voc 0 k j false <> 0.
Proof.
  eexists biring3, biring2, _. split; [apply biring3_ok|]. split; [apply biring2_ok|].
  split; [split; [reflexivity| |]|split; [|split; [vm_compute; reflexivity|]]].
  - intros i i' p p' _ H H'. apply nth_error_In in H, H'. cbn in H, H'. intuition subst; auto.
  - intros p H. exists (plain 0 [2; 0; 1]). split; [cbn; auto|]. split; [|cbn; distinct_list]. cbn in H. intuition subst; auto.
  - assert (W : forall i v, writes_var biring2 i v -> v = i).
    { intros i v (p & m & Hp & E & X). do 2 (destruct i as [|i]; [cbn in Hp; injection Hp as <-; destruct m as [|[|[|m]]];
        [exfalso; destruct X as [X|[X|[X|X]]]; discriminate|cbn in E; congruence|exfalso; destruct X as [X|[X|[X|X]]]; discriminate|destruct m; discriminate]|]).
      destruct i; discriminate. }
    intros i i' v H H'. apply W in H, H'. congruence.
  - cbv zeta. cbn [f_nvariables f_variable_of_channel]. split; [|split].
    + exists (plain 0 [1; 0; 1]). split; reflexivity.
    + exists (plain 0 [0; 1; 0]), 1. split; [reflexivity|]. split; [reflexivity|]. left. reflexivity.
    + intros k j. unfold exec_variable_of_channel, exec_chain, exec_lines. cbn. destruct k as [|[|k]]; destruct j as [|[|j]]; discriminate.
Qed.
Print Assumptions C77_seen_twice_refuted.

(** Refuted: "each process is given the code of its kind".  A kind without processes in the system the
    protocol was found for is left out, and those after it are shifted. *)
Definition trit (t : atype) : access := {| a_type := t; a_role := Direct; a_dom := 3 |}.
Definition mixed : list pcsymm := [writer; declare [Plain (trit WriteAccess)]].
Definition late : network := mkNetwork [3] [Direct] mixed [plain 1 [0]].
Definition both : network := mkNetwork [2; 3] [Direct; Direct] mixed [plain 0 [0]; plain 1 [1]].
Lemma mixed_laid : forall k, In k mixed -> laid_out k.
Proof. intros k [<-|[<-|[]]]; apply C40_declared_processes; intros n vs [H|[]]; discriminate. Qed.
Theorem C77_absent_kind_refuted : exists T O F, net_ok T /\ net_ok O /\ kinds T = kinds O /\ gen_udp_file 9 true T O [] = Some F /\
  (* the variable of process 0 has two values and that of process 1 three; the code says three and none *)
  vdoms O = [2; 3] /\ cell O 0 0 0 /\ cell O 1 0 1 /\ exec_domsz (f_domsz F) 0 0 = 3 /\ exec_domsz (f_domsz F) 1 0 = 0.
Proof.
  eexists late, both, _. split; [|split; [|split; [reflexivity|split; [vm_compute; reflexivity|]]]].
  - apply plain_ok; [repeat constructor|apply mixed_laid|].
    intros p [<-|[]]; eexists 1, _; (split; [reflexivity|]); (split; [cbn; lia|]); (split; [reflexivity|]); intros [|i] Hi; cbn in *; repeat split; lia.
  - apply plain_ok; [repeat constructor|apply mixed_laid|].
    intros p [<-|[<-|[]]]; [eexists 0, _|eexists 1, _]; (split; [reflexivity|]); (split; [cbn; lia|]); (split; [reflexivity|]); intros [|i] Hi; cbn in *; repeat split; lia.
  - split; [reflexivity|]. split; [exists (plain 0 [0]); split; reflexivity|]. split; [exists (plain 1 [1]); split; reflexivity|]. split; reflexivity.
Qed.
Print Assumptions C77_absent_kind_refuted.
