(** Theorems about the conflicts that a protocol file lists: C93. *)
From Coq Require Import String List Arith Bool ZArith Lia.
From Verif Require Import FinLib Radix FmlaModel FmlaSpec FmlaProofs FmlaProofs2 FmlaProofs3 FmlaProofs4 FmlaProps
  ActModel ActSpec ActProofs ActProps NetModel NetSpec IntModel ExprModel ExprSpec CmdModel CmdSpec CmdProofs4 CmdProofs3 CmdProps DeclModel
  ConflictSpec ConflictModel ConflictProofs ConflictProps ClashModel ClashSpec ClashProofs.
Import ListNotations.
Local Open Scope string_scope.
Local Open Scope list_scope.
Local Open Scope nat_scope.

(** An action in a list of conflicts is looked at in the first process of the kind whose variables are different.  If
    it can happen there at all, it is accepted exactly when all its steps test and assign the same values, and these
    are what is noted. *)
Theorem C93_listed : forall N F idx_name lets preds mbs a G mb,
  inhabited (vdoms N) ->
  (forall m, In m mbs -> length (p_vbls (m_pc m)) = nr (kind_of N (m_pc m))) ->
  first_unrepeated mbs mb ->
  wf_ids (vdoms N) (p_vbls (m_pc mb)) ->
  declares (vdoms N) F (Some (use_of lets preds mb)) G ->
  fresh_command [idx_name] a -> any_last (a_assigns a) -> total_action N (m_pc mb) G [(idx_name, m_index mb)] a ->
  let R := action_step N (m_pc mb) G [(idx_name, m_index mb)] true a Puppet in
  (exists s t, ok (vdoms N) s /\ ok (vdoms N) t /\ R s t) ->
  forall c, conflict_action N F idx_name lets preds mbs a = Some c <-> exists x, c = [x] /\ looks_like N (m_pc mb) R x.
Proof.
  intros N F idx_name lets preds mbs a G mb INH LEN FU WF DECL FR LAST TOT R SOME c.
  assert (IN : In mb mbs) by (destruct FU as (l1 & l2 & -> & _); apply in_elt).
  pose proof (stands_in_spec N mbs LEN) as ST. unfold conflict_action. destruct (stands_in N mbs) as [mb'|].
  2:{ exfalso. apply (ST mb IN). destruct FU as (l1 & l2 & _ & D & _). exact D. }
  assert (mb' = mb) by (eapply first_once; eauto). subst mb'.
  assert (PR : proper_process N (m_pc mb)).
  { constructor; auto. apply own_distinct; auto. destruct FU as (l1 & l2 & _ & D & _). exact D. }
  destruct (parse_total N F idx_name lets preds mb G INH DECL PR true Puppet a FR LAST TOT) as (x & E). rewrite E.
  destruct (parse_means N F idx_name lets preds mb G INH DECL PR true Puppet a x FR LAST E) as (TX & MX).
  assert (SX : exists s t, ok (vdoms N) s /\ ok (vdoms N) t /\ FmlaSpec.steps x s t).
  { destruct SOME as (s & t & S & T & H). exists s, t. split; auto. split; auto. apply MX; auto. }
  pose proof (clash_spec N mb INH x TX SX WF (LEN mb IN)) as CL.
  assert (EXT : forall y, looks_like N (m_pc mb) (FmlaSpec.steps x) y <-> looks_like N (m_pc mb) R y).
  { intros y. split; apply looks_ext; intros s t S T; [|symmetry]; apply MX; auto. }
  split.
  - intros EQ. destruct (clash_of N mb x) as [y|] eqn:EC; [|discriminate]. injection EQ as <-. exists y. split; auto. apply EXT, CL. reflexivity.
  - intros (y & -> & L). apply EXT in L. apply CL in L. rewrite L. reflexivity.
Qed.
Print Assumptions C93_listed.

(** If every process of the kind has two accesses to one variable, any list is accepted, and nothing is noted. *)
Theorem C93_nobody : forall N F idx_name lets preds mbs l c,
  (forall m, In m mbs -> length (p_vbls (m_pc m)) = nr (kind_of N (m_pc m))) ->
  (forall m, In m mbs -> ~ NoDup (p_vbls (m_pc m))) ->
  conflict_actions N F idx_name lets preds mbs c l = Some c.
Proof.
  intros N F idx_name lets preds mbs l c LEN ND. induction l as [|a l IH]; [reflexivity|]. cbn [conflict_actions]. unfold conflict_action.
  pose proof (stands_in_spec N mbs LEN) as ST. destruct (stands_in N mbs) as [mb|].
  - exfalso. destruct ST as (l1 & l2 & E & D & _). apply (ND mb); auto. rewrite E. apply in_elt.
  - rewrite app_nil_r. exact IH.
Qed.
Print Assumptions C93_nobody.

Lemma firstn_snoc : forall (l : list access) n, n < length l -> firstn (S n) l = firstn n l ++ [nth n l acc0].
Proof. induction l as [|a l IH]; intros n H; [inversion H|]. destruct n; [reflexivity|]. cbn [firstn nth app]. f_equal. apply IH. cbn in H. lia. Qed.

(** What is noted is an action of the kind, with a number of its own, if the process only reads and writes variables
    that are not of the specification only. *)
Theorem C93_number : forall N p R x,
  p_kind p < length (kinds N) -> length (p_vbls p) = nr (kind_of N p) ->
  (forall i, i < nr (kind_of N p) ->
     (a_type (acc (kind_of N p) i) = ReadAccess \/ a_type (acc (kind_of N p) i) = WriteAccess) /\
     a_role (acc (kind_of N p) i) <> Shadow /\
     a_role (acc (kind_of N p) i) = nth (rvbl p i) (vroles N) Direct /\
     rvbl p i < length (vdoms N) /\ a_dom (acc (kind_of N p) i) = nth (rvbl p i) (vdoms N) 0) ->
  (exists s t, ok (vdoms N) s /\ ok (vdoms N) t /\ R s t) ->
  looks_like N p R x ->
  id_of (kinds N) x < actions_in (kinds N) /\ act_of (kinds N) (id_of (kinds N) x) = x.
Proof.
  intros N p R x K LEN ACC (s & t & OS & OT & ST) [LK LL LG LA]. apply C39_encode; rewrite LK; auto.
  fold (kind_of N p).
  assert (PL : forall n, n <= nr (kind_of N p) -> place (kind_of N p) n = length (filter (fun i => write_ck (acc (kind_of N p) i)) (seq 0 n))).
  { intros n Hn. unfold place. induction n as [|n IH]; [reflexivity|].
    rewrite seq_S, filter_app, app_length, <- IH by lia. cbn [plus].
    assert (E : firstn (S n) (accs (kind_of N p)) = firstn n (accs (kind_of N p)) ++ [acc (kind_of N p) n]).
    { apply firstn_snoc. unfold nr in Hn. lia. }
    rewrite E, filter_app, app_length. f_equal. cbn [filter]. unfold write_ck. destruct (a_type (acc (kind_of N p) n)); reflexivity. }
  assert (WM : nw (kind_of N p) = place (kind_of N p) (length (accs (kind_of N p)))).
  { unfold nw, wmap. rewrite PL by (unfold nr; lia). unfold nr. reflexivity. }
  split; [|split].
  - rewrite LL, WM. reflexivity.
  - intros i Hi. change (length (accs (kind_of N p))) with (nr (kind_of N p)) in Hi. change (nth i (accs (kind_of N p)) acc0) with (acc (kind_of N p) i).
    destruct (ACC i Hi) as (TY & RO & RV & VL & DM). unfold tested, guard_values.
    destruct (LG i Hi) as (_ & G). rewrite <- RV in G. rewrite <- (G RO s t OS OT ST).
    pose proof (ok_nth (vdoms N) s (rvbl p i) OS VL) as B.
    destruct (a_role (acc (kind_of N p) i)); [|contradiction|]; destruct TY as [-> | ->]; rewrite DM; exact B.
  - intros i Hi W. change (length (accs (kind_of N p))) with (nr (kind_of N p)) in Hi. change (nth i (accs (kind_of N p)) acc0) with (acc (kind_of N p) i) in *.
    destruct (ACC i Hi) as (TY & RO & RV & VL & DM).
    assert (TW : a_type (acc (kind_of N p) i) = WriteAccess) by (destruct TY as [TY|TY]; auto; unfold writable in W; rewrite TY in W; intuition discriminate).
    assert (PW : place (kind_of N p) i < nw (kind_of N p) /\ nth (place (kind_of N p) i) (wmap (kind_of N p)) 0 = i).
    { rewrite PL by lia. unfold nw, wmap. fold (nr (kind_of N p)).
      replace (seq 0 (nr (kind_of N p))) with (seq 0 i ++ i :: seq (S i) (nr (kind_of N p) - S i)).
      2:{ replace (nr (kind_of N p)) with (i + S (nr (kind_of N p) - S i)) at 2 by lia. rewrite seq_app. reflexivity. }
      rewrite filter_app. assert (EW : write_ck (acc (kind_of N p) i) = true) by (unfold write_ck; rewrite TW; reflexivity). cbn [filter]. rewrite EW. split.
      - rewrite app_length. cbn [length]. lia.
      - rewrite app_nth2, Nat.sub_diag by lia. reflexivity. }
    destruct PW as (PW1 & PW2). specialize (LA _ PW1). cbv zeta in LA. destruct LA as (_ & LA).
    unfold wvbl in LA. rewrite PW2 in LA. rewrite <- RV in LA. unfold assigned, assign_values.
    change (length (accs (kind_of N p))) with (nr (kind_of N p)). rewrite <- (LA (fun H => RO (proj1 H)) s t OS OT ST).
    pose proof (ok_nth (vdoms N) t (rvbl p i) OT VL) as B. rewrite TW.
    destruct (a_role (acc (kind_of N p) i)); [|contradiction|]; rewrite DM; exact B.
Qed.
Print Assumptions C93_number.

(** The lists of conflicts of a file have no effect: whatever they say, if the file is accepted, the system and the
    processes are those of the file without the lists, no kind has a conflict, and the search starts with the
    conflicts it would have started with. *)
Theorem C93_no_effect : forall consts arrays ds l Y Ps, read_pfile consts arrays ds l = Some (Y, Ps) ->
  read_file consts arrays ds (without_conflicts l) = Some (Y, map fst Ps) /\
  forall place net f, add_file_conflicts place net f (map snd Ps) = f.
Proof.
  intros consts arrays ds l Y Ps E. destruct (pitems_plain consts arrays ds l new_sys [] Y Ps E) as (A & B). split; [exact A|].
  intros place net f. apply no_conflicts_added. apply Forall_map. exact B.
Qed.
Print Assumptions C93_no_effect.

(** What a list would do if the function that is there for it were called: sets with all its actions are refused. *)
Theorem C93_pushed : forall place net f c t, c <> [] ->
  (conflict_ck (add_file_conflicts place net f [fst (push_conflict_action [] c)]) t = true <->
   conflict_ck f t = true \/ incl (map (id_of net) c) t).
Proof.
  intros place net f c t NE. destruct c as [|x c]; [contradiction|]. unfold push_conflict_action. set (d := x :: c). cbn [fst app]. unfold add_file_conflicts. cbn [concat app fold_left].
  rewrite C19_add_exact. split; (intros [H|H]; [auto|]; right); intros y Hy; apply H.
  - rewrite fs_of_in. exact Hy.
  - rewrite fs_of_in in Hy. exact Hy.
Qed.
Print Assumptions C93_pushed.

Definition duo_kind : pcsymm := {| accs := [{| a_type := ReadAccess; a_role := Direct; a_dom := 2 |}; written_access 2]; symms := [] |}.
Definition duo_proc (i : nat) : process := mkProcess 0 [1 - i; i] (Cst true) (Cst false) (Cst false) (Cst false) (Cst false).
Definition duo_net : network := mkNetwork [2; 2] [Direct; Direct] [duo_kind] (map duo_proc [0; 1]).
Definition duo_mbs : list membr := map (fun i => mkMembr (duo_proc i) i (Z.of_nat i)) [0; 1].
Definition duo_act : action :=
  mkAction false (SCmp CNe (SAref "x" (SBin SubOp (SName "i") (SNat 1))) (SAref "x" (SName "i")))
    [ASet "x" (SName "i") (Some (SAref "x" (SBin SubOp (SName "i") (SNat 1))))].
Definition test_set (u v w : nat) : action :=
  mkAction false (SAnd (SCmp CEq (SAref "x" (SBin SubOp (SName "i") (SNat 1))) (SNat u)) (SCmp CEq (SAref "x" (SName "i")) (SNat v)))
    [ASet "x" (SName "i") (Some (SNat w))].
Definition xs : list (string * list nat) := [("x", [0; 1])].
Example C93_example : inhabited (vdoms duo_net) /\ first_unrepeated duo_mbs (mkMembr (duo_proc 0) 0 0%Z) /\
  declares (vdoms duo_net) (arrays_file xs) (Some (use_of [] [] (mkMembr (duo_proc 0) 0 0%Z))) (arrays_scope xs) /\
  fresh_command ["i"] (test_set 0 1 0) /\ any_last (a_assigns (test_set 0 1 0)) /\
  total_action duo_net (duo_proc 0) (arrays_scope xs) [("i", 0%Z)] (test_set 0 1 0) /\
  action_step duo_net (duo_proc 0) (arrays_scope xs) [("i", 0%Z)] true (test_set 0 1 0) Puppet [1; 0] [0; 0] /\
  conflict_action duo_net (arrays_file xs) "i" [] [] duo_mbs (test_set 0 1 0) = Some [{| act_pc := 0; vals := [0; 1; 0] |}] /\
  id_of [duo_kind] {| act_pc := 0; vals := [0; 1; 0] |} = 2 /\
  conflict_action duo_net (arrays_file xs) "i" [] [] duo_mbs duo_act = None.
Proof.
  split; [repeat constructor|]. split.
  - exists [], (map (fun i => mkMembr (duo_proc i) i (Z.of_nat i)) [1]). split; [reflexivity|]. split; [|intros m []].
    repeat constructor; cbn; intuition discriminate.
  - split; [|split; [|split; [|split; [|split]]]].
    + apply arrays_declare. intros x vs. cbn. destruct (String.eqb x "x"); [|discriminate]. intros E. injection E as <-. split; [discriminate|]. repeat constructor.
    + split; [cbn; auto|]. intros x i e [E|[]]. injection E as <- <- <-. split; [cbn; auto|]. intros e' E. injection E as <-. cbn. auto.
    + intros l1 l2 E. destruct l1 as [|a [|]]; discriminate.
    + split.
      * cbn; repeat split; try discriminate; intros s k v _ E1 E2; injection E1 as <-; vm_compute in E2; injection E2 as <-; vm_compute; auto.
      * intros x i e [E|[]]. injection E as <- <- <-. cbn. repeat split; try discriminate.
        -- exists [0; 1]. split; [reflexivity|]. intros s k v _ E1 E2. injection E1 as <-. vm_compute in E2. injection E2 as <-. vm_compute. auto.
        -- intros e' E. injection E as <-. cbn. auto.
    + constructor; [|discriminate|].
      * exists [1; 0]. split; [repeat constructor|]. split; [reflexivity|]. constructor.
        -- reflexivity.
        -- intros x i e v [E|[]] C. injection E as <- <- <-. vm_compute in C. injection C as <-. exists 0%Z. split; reflexivity.
        -- intros _ v [<-|[]] NA. exfalso. apply NA. exists "x", (SName "i"), (Some (SNat 0)). split; [left; reflexivity|reflexivity].
      * intros (w & W & B & _). destruct w as [|w]; [discriminate|]. vm_compute in W. lia.
    + repeat split; vm_compute; reflexivity.
Qed.
(** A list that is accepted is one the search heeds: false.  This file says that two actions are not to be used
    together; the search does not refuse them. *)
Theorem C93_heeded_refuted : exists l acts Y Ps,
  read_pfile [] xs [2; 2] [PInside (mkHead duo_net "i" [] duo_mbs) [PConflict l]] = Some (Y, Ps) /\
  conflict_actions duo_net (arrays_file xs) "i" [] [] duo_mbs [] l = Some acts /\ map (id_of [duo_kind]) acts = [2; 6] /\
  forall place, conflict_ck (add_file_conflicts place [duo_kind] empty_family (map snd Ps)) [2; 6] = false.
Proof.
  exists [test_set 0 1 0; test_set 1 1 0], [{| act_pc := 0; vals := [0; 1; 0] |}; {| act_pc := 0; vals := [1; 1; 0] |}].
  assert (E : conflict_actions duo_net (arrays_file xs) "i" [] [] duo_mbs [] [test_set 0 1 0; test_set 1 1 0] =
    Some [{| act_pc := 0; vals := [0; 1; 0] |}; {| act_pc := 0; vals := [1; 1; 0] |}]) by (vm_compute; reflexivity).
  exists new_sys, [(new_kind (mkHead duo_net "i" [] duo_mbs), [])]. split.
  - unfold read_pfile. cbn [read_pitems read_pbody read_pstmt h_net h_idx h_lets rd_sys rd_kind rd_conflict rd_conflicts].
    change (conflict_actions duo_net _ "i" [] _ _ [] [test_set 0 1 0; test_set 1 1 0]) with (conflict_actions duo_net (arrays_file xs) "i" [] [] duo_mbs [] [test_set 0 1 0; test_set 1 1 0]).
    rewrite E. reflexivity.
  - split; [exact E|]. split; [reflexivity|]. intros place. reflexivity.
Qed.
Print Assumptions C93_heeded_refuted.

(** Only an action that can happen is noted: false.  "x[i-1] == 0 && x[i-1] == 1 --> x[i] := 0" never happens; what is
    noted tests and assigns the largest values. *)
Theorem C93_possible_refuted :
  let a := mkAction false (SAnd (SCmp CEq (SAref "x" (SBin SubOp (SName "i") (SNat 1))) (SNat 0)) (SCmp CEq (SAref "x" (SBin SubOp (SName "i") (SNat 1))) (SNat 1)))
             [ASet "x" (SName "i") (Some (SNat 0))] in
  (forall G s t, ~ action_step duo_net (duo_proc 0) (mkScope [] [] [] xs G) [("i", 0%Z)] true a Puppet s t) /\
  conflict_action duo_net (arrays_file xs) "i" [] [] duo_mbs a = Some [{| act_pc := 0; vals := [1; 1; 1] |}].
Proof.
  split; [|vm_compute; reflexivity].
  intros G s t [(s0 & _ & _ & [C _ _]) _ _]. cbn in C.
  change (nth_error [0; 1] (Pos.to_nat 1)) with (Some 1) in C. cbn [option_map] in C.
  destruct (Z.eq_dec (Z.of_nat (nth 1 s0 0)) 0); [|discriminate]. destruct (Z.eq_dec (Z.of_nat (nth 1 s0 0)) 1); [lia|discriminate].
Qed.
Print Assumptions C93_possible_refuted.

(** What is noted is always an action: false.  If the process writes a variable that it cannot read during synthesis,
    the value before the step is noted, which no action tests. *)
Definition blind_kind : pcsymm := {| accs := [{| a_type := EffectAccess; a_role := Direct; a_dom := 2 |}]; symms := [] |}.
Theorem C93_action_refuted :
  let a := mkAction false (SCmp CEq (SAref "x" (SNat 0)) (SNat 1)) [ASet "x" (SNat 0) (Some (SNat 0))] in
  conflict_action (solo [2] blind_kind [0]) (arrays_file [("x", [0])]) "i" [] [] [me [0]] a = Some [{| act_pc := 0; vals := [1; 0] |}] /\
  ~ action_values blind_kind [1; 0] /\
  actions_in [blind_kind] = 3 /\ id_of [blind_kind] {| act_pc := 0; vals := [1; 0] |} = 3.
Proof.
  split; [vm_compute; reflexivity|]. split; [|split; reflexivity].
  intros (_ & H & _). specialize (H 0 (le_n _)). cbn in H. lia.
Qed.
Print Assumptions C93_action_refuted.
