(** C91: what the ring synthesis program writes. *)
From Coq Require Import NArith.
From Verif Require Import UdpModel UdpSpec.
From Coq Require Import String List Arith Bool ZArith Lia.
From Verif Require Import FinLib Radix ParseModel AccessModel AccessSpec PrintModel FmlaModel FmlaSpec FmlaProofs FmlaProofs2 FmlaProofs3 FmlaProofs4 FmlaProps
  ActModel ActSpec NetModel NetSpec CandProofs GivenProofs IntModel ExprModel ExprSpec ReachSpec CmdModel CmdSpec CmdProofs4 DeclModel DeclSpec DeclProofs DeclProofs4 DeclProps
  UniModel UniSpec UniProofs LivelockSpec TileSpec SynthModel SynthSpec SynthProofs SynthProps WangSpec UtextModel UtextSpec UtextProps RsynModel RsynSpec RsynProofs RsynProps.
Import ListNotations.
Local Open Scope list_scope.
Local Open Scope string_scope.
Local Open Scope nat_scope.

(** The protocol that is written, read again with any number of processes. *)
Definition written_well (t : prot_text) (legits : list (nat * nat)) (n : nat) : Prop :=
  exists net T, read_prot n t = Some (net, T) /\ vdoms net = repeat (pt_domsz t) n /\
  map p_vbls (pcs net) = map (fun i => [pred_of n i; i]) (seq 0 n) /\
  (** it ends: *)
  (~ exists e : nat -> list nat, forall k, ok (vdoms net) (e k) /\ FmlaSpec.steps (t_direct T) (e k) (e (S k))) /\
  (** it does not leave a legitimate state: *)
  (forall s s', ok (vdoms net) s -> ok (vdoms net) s' -> legit_state legits s -> ~ FmlaSpec.steps (t_direct T) s s') /\
  (** and if every value that the root leads to and that can go on for ever leads back to the root, it ends in legitimate states only: *)
  (forall g, root legits g -> (forall x, path (legit legits) g x -> alive legits x -> path (legit legits) x g) ->
   forall s, ok (vdoms net) s -> (forall s', ok (vdoms net) s' -> ~ FmlaSpec.steps (t_direct T) s s') -> legit_state legits s).

Lemma step_in : forall (P : protocol) M s s', (forall a b c, P a b c -> c < M) -> in_domain M s -> ring_step P s s' -> length s' = length s /\ in_domain M s'.
Proof.
  intros P M s s' B D (p & a & b & c & _ & E & X & ->). assert (L : p < length s) by (apply nth_error_Some; congruence). split.
  - rewrite app_length, firstn_length. cbn [length]. rewrite skipn_length. lia.
  - unfold in_domain in *. rewrite Forall_forall in *. intros x I. apply in_app_or in I. destruct I as [I|[<-|I]].
    + apply D. rewrite <- (firstn_skipn p s). apply in_or_app. auto.
    + apply (B _ _ _ X).
    + apply D. rewrite <- (firstn_skipn (S p) s). apply in_or_app. auto.
Qed.

Theorem C91_written : forall legits M acts n, M <= 255 -> in_range M legits -> generate legits M = Some acts ->
  let t := oput_protocon acts 0 in pt_domsz t <= M /\ (pt_domsz t = 0 <-> acts = []) /\ (acts <> [] -> 1 <= n -> written_well t legits n).
Proof.
  intros legits M acts n ML IR GEN t.
  assert (B : acts_below M acts) by (intros a b c I; apply (gen_range legits M IR acts GEN a b c I)).
  assert (B255 : acts_below 255 acts) by (intros a b c I; destruct (B a b c I); lia).
  destruct (domsz_of_acts_spec acts B255) as (S1 & S2 & S3). change (pt_domsz t) with (domsz_of_acts acts). set (D := domsz_of_acts acts) in *.
  assert (NE : acts <> [] -> 1 <= D <= M).
  { intros X. destruct (S2 X) as (a & b & c & I & EQ). destruct (B a b c I) as (? & ? & ?). lia. }
  split; [destruct acts; [rewrite S3; auto; lia|apply NE; discriminate]|]. split; [split; auto; intros X; destruct acts; auto; specialize (NE ltac:(discriminate)); lia|].
  intros X N1. destruct (NE X) as (D1 & DM).
  assert (ET : t = oput_protocon acts D) by (unfold t, oput_protocon; cbn [Nat.eqb]; fold D; destruct (Nat.eqb_spec D 0); [lia|reflexivity]).
  destruct (C87_prot_file n D acts N1 D1 S1) as (net & T & ER & EV & EP & ST).
  assert (DOM : forall s, ok (vdoms net) s <-> length s = n /\ in_domain D s) by (intros s; rewrite EV; apply ok_repeat).
  assert (WIDE : forall s, in_domain D s -> in_domain M s) by (intros s; unfold in_domain; apply Forall_impl; intros; lia).
  unfold written_well. change (pt_domsz t) with D. rewrite ET. exists net, T. split; auto. split; [exact EV|]. split; auto. split; [|split].
  - intros (e & H). apply (C16_generated_protocol_terminates legits M acts IR GEN n). exists e. destruct (proj1 (DOM _) (proj1 (H 0))) as (L0 & D0). split; auto. split; [apply WIDE; auto|].
    intros k. destruct (H k) as (K1 & K2). apply ST; auto. apply H.
  - intros s s' S S' LS X1. apply (ST s s' S S') in X1. apply (C17_legitimate_states_silent legits M acts s IR GEN LS s' X1).
  - intros g RG CL s S Q. apply (proj2 (C18_converges_iff legits M acts g IR GEN RG) CL); [apply WIDE, DOM; auto|]. intros s' RS.
    assert (S' : ok (vdoms net) s'). { apply DOM. apply DOM in S. destruct S as (LS & DS). destruct (step_in _ D s s' (fun a b c I => proj2 (proj2 (S1 a b c I))) DS RS) as (A1 & A2). split; auto. lia. }
    apply (Q s' S'). apply (ST s s' S S'). exact RS.
Qed.
Print Assumptions C91_written.

(** From file to file: a ring without actions, whose processes all find the same pairs legitimate. *)
Theorem C91_program : forall consts arrays l Y Ps G h body fuel n M Good,
  let ds := vdoms (h_net h) in let G0 := at_first consts arrays in
  inhabited ds -> proper_decls ds consts arrays -> every_item (proper_item ds) G0 l -> read_file consts arrays ds l = Some (Y, Ps) -> only_kind G0 l G h body ->
  length (assignments ds) < fuel -> 2 <= n -> 1 <= M <= 255 -> ring_head n M h -> same_demand n Good h G body ->
  no_actions ds G0 l -> (forall s, ok ds s -> (legitimate G0 l s <-> forall m, In m (h_membs h) -> content h G body m s)) ->
  exists legits t, uniring_main (h_net h) fuel consts arrays l = Some (Some t) /\ lists_good M Good legits /\
    (forall s, ok ds s -> (legitimate G0 l s <-> legit_state legits s)) /\ pt_domsz t <= M /\
    forall n', 1 <= pt_domsz t -> 1 <= n' -> written_well t legits n'.
Proof.
  intros consts arrays l Y Ps G h body fuel n M Good ds G0 INH PD PR E ONE F L2 ML RH SD NA LG.
  destruct (C91_pairs consts arrays l Y Ps G h body INH PD PR E ONE fuel n M Good F L2 (proj2 ML) RH SD NA LG) as (legits & ER & LGOOD & HL).
  assert (IR : in_range M legits) by (intros a b I; apply LGOOD in I; tauto).
  destruct (C16_generator_terminates legits M IR) as (acts & GEN). exists legits, (oput_protocon acts 0). split.
  - unfold uniring_main. fold ds. rewrite E, ER. destruct (Nat.eqb_spec M 0); [lia|]. rewrite GEN. reflexivity.
  - destruct (C91_written legits M acts 1 (proj2 ML) IR GEN) as (DM & DZ & _). split; auto. split; auto. split; auto. intros n' D1 N1.
    apply (C91_written legits M acts n' (proj2 ML) IR GEN); auto. intros X. apply DZ in X. lia.
Qed.
Print Assumptions C91_program.

(** ** Files *)
Local Notation "a ?= b" := (SCmp CEq a b) (at level 70).
(** x[0], .., x[n-1] < M; process i reads x[i+k] and writes x[i] *)
Definition plain_kind (M : nat) : pcsymm :=
  {| accs := [{| a_type := ReadAccess; a_role := Direct; a_dom := M |}; {| a_type := WriteAccess; a_role := Direct; a_dom := M |}]; symms := [] |}.
Definition ring_process (n k i : nat) : process := mkProcess 0 [(i + k) mod n; i] (Cst true) (Cst false) (Cst false) (Cst false) (Cst false).
Definition ring_of (n M k : nat) : network := mkNetwork (repeat M n) (repeat Direct n) [plain_kind M] (map (ring_process n k) (seq 0 n)).
Definition rhead (n M k : nat) : pc_head := mkHead (ring_of n M k) "i" [] (map (fun i => mkMembr (ring_process n k i) i (Z.of_nat i)) (seq 0 n)).
Definition rarrays (n : nat) : list (string * list nat) := [("x", seq 0 n)].
Definition rfile (n M k : nat) (e : sexp) : list item := [Inside (rhead n M k) [Legit decl_mode e]].
Definition left_is (a : nat) : sexp := x_left ?= SNat a.
Definition right_is (a : nat) : sexp := x_at (SBin AddOp (SName "i") (SNat 1)) ?= SNat a.
Definition own_is (a : nat) : sexp := x_own ?= SNat a.

Lemma rdecls : forall n M, 1 <= n -> proper_decls (repeat M n) [] (rarrays n).
Proof.
  intros n M L. constructor; cbn.
  - discriminate.
  - intros x l. destruct (String.eqb x "x"); [|discriminate]. intros X. injection X as <-. split; [destruct n; [lia|discriminate]|].
    apply Forall_forall. intros v I. apply in_seq in I. rewrite repeat_length. lia.
  - auto.
Qed.
Lemma rhead_proper : forall n M k G, 2 <= n -> k < n -> k <> 0 -> proper_head (repeat M n) G (rhead n M k).
Proof.
  intros n M k G L K K0. constructor.
  - reflexivity.
  - unfold random_vbls. cbn [h_net rhead ring_of pcs]. assert (X : forall l, flat_map (fun p => map (rvbl p) (filter (fun i => random_read_ck (acc (kind_of (ring_of n M k) p) i)) (seq 0 (nr (kind_of (ring_of n M k) p))))) (map (ring_process n k) l) = []).
    { induction l as [|i l IH]; auto. }
    rewrite ?X. constructor.
  - cbn [h_membs rhead]. rewrite map_map, map_length, seq_length. cbn. apply map_id.
  - intros m I. apply in_map_iff in I. destruct I as (i & <- & I). apply in_seq in I. constructor.
    + reflexivity.
    + cbn. repeat constructor; rewrite repeat_length; [apply Nat.mod_upper_bound|]; lia.
    + vm_compute. constructor; [intros []|constructor].
  - intros m I. apply in_map_iff in I. destruct I as (i & <- & I). eexists _, _. reflexivity.
  - intros x l [].
Qed.
Lemma rfile_proper : forall n M k G e, 2 <= n -> k < n -> k <> 0 -> fresh_indices ["i"] e -> every_item (proper_item (repeat M n)) G (rfile n M k e).
Proof. intros n M k G e L K K0 FR. split; [|exact Logic.I]. split; [apply rhead_proper; auto|]. constructor; [exact FR|constructor]. Qed.
Lemma rfile_only : forall n M k G e, only_kind G (rfile n M k e) G (rhead n M k) [Legit decl_mode e].
Proof. intros. exists [], []. auto. Qed.
Lemma rfile_still : forall n M k G e, no_actions (repeat M n) G (rfile n M k e).
Proof. intros n M k G e s t S T X. destruct X as [(m & _ & _ & X)|X]; [destruct X as [X|X]; exact X|exact X]. Qed.
Lemma rfile_content : forall n M k G e s, legitimate G (rfile n M k e) s <-> forall m, In m (h_membs (rhead n M k)) -> content (rhead n M k) G [Legit decl_mode e] m s.
Proof. intros. unfold legitimate, rfile. cbn [every_item]. split; [intros (H & _); exact H|]. intros H. split; [exact H|exact Logic.I]. Qed.
Lemma rhead_ring : forall n M, 2 <= n -> ring_head n M (rhead n M (n - 1)).
Proof.
  intros n M L. constructor; [reflexivity|cbn [h_membs rhead]; rewrite map_length, seq_length; reflexivity|].
  intros i m E. cbn [h_membs rhead] in E. rewrite nth_error_map in E. destruct (nth_error (seq 0 n) i) as [j|] eqn:EJ; [|discriminate]. injection E as <-.
  assert (i < n) by (rewrite <- (seq_length n 0); apply nth_error_Some; congruence). apply nth_error_nth with (d := 0) in EJ. rewrite seq_nth in EJ by auto. cbn in EJ. subst j.
  left. split; [reflexivity|]. split; [reflexivity|]. cbn [m_pc ring_process p_vbls]. f_equal. unfold pred_of. destruct (Nat.eqb_spec i 0) as [->|].
  - cbn [Nat.add]. apply Nat.mod_small. lia.
  - replace (i + (n - 1)) with (i - 1 + 1 * n) by lia. rewrite Nat.mod_add by lia. apply Nat.mod_small. lia.
Qed.
Definition one_of (l : list sexp) : sexp := fold_right SOr (SName "false") l.
Definition pairs_are (left : nat -> sexp) (l : list (nat * nat)) : sexp := one_of (map (fun p => SAnd (left (fst p)) (own_is (snd p))) l).

(** ** A concrete case: three values, 0 -> 0, 0 -> 1, 1 -> 2, 2 -> 0 *)
Definition cycle3 : list (nat * nat) := [(0, 0); (0, 1); (1, 2); (2, 0)].
Example C91_example : exists Y Ps,
  let h := rhead 2 3 1 in let l := rfile 2 3 1 (pairs_are left_is cycle3) in let G := at_first [] (rarrays 2) in
  inhabited (repeat 3 2) /\ proper_decls (repeat 3 2) [] (rarrays 2) /\ every_item (proper_item (repeat 3 2)) G l /\
  read_file [] (rarrays 2) (repeat 3 2) l = Some (Y, Ps) /\ only_kind G l G h [Legit decl_mode (pairs_are left_is cycle3)] /\
  ring_head 2 3 h /\ same_demand 2 (fun a b => In (a, b) cycle3) h G [Legit decl_mode (pairs_are left_is cycle3)] /\ no_actions (repeat 3 2) G l /\
  match uniring_main (h_net h) 10 [] (rarrays 2) l with
  | Some (Some t) => pt_domsz t = 3 /\ pt_acts t = map act_text [(0, 2, 0); (1, 0, 2); (1, 1, 2); (2, 1, 0); (2, 2, 0)]
  | _ => False
  end.
Proof.
  assert (X : match read_file [] (rarrays 2) (repeat 3 2) (rfile 2 3 1 (pairs_are left_is cycle3)) with Some _ => true | None => false end = true) by (vm_compute; reflexivity).
  destruct (read_file [] (rarrays 2) (repeat 3 2) (rfile 2 3 1 (pairs_are left_is cycle3))) as [(Y, Ps)|] eqn:E; [|discriminate X]. exists Y, Ps. cbv zeta.
  split; [repeat constructor|]. split; [apply rdecls; lia|]. split; [apply rfile_proper; try lia; cbn; tauto|]. split; [exact E|]. split; [apply rfile_only|].
  split; [apply (rhead_ring 2 3); lia|]. split; [|split; [apply rfile_still|vm_compute; auto]].
  intros i m s EM S. change (vdoms (h_net (rhead 2 3 1))) with [3; 3] in S. inversion S as [|a x s1 l1 A S1]; subst. inversion S1 as [|b x s2 l2 B S2]; subst. inversion S2; subst. clear - EM A B.
  assert (C : i = 0 /\ m = mkMembr (ring_process 2 1 0) 0 0%Z \/ i = 1 /\ m = mkMembr (ring_process 2 1 1) 1 1%Z).
  { destruct i as [|[|i]]; cbn in EM; [injection EM as <-; auto|injection EM as <-; auto|destruct i; discriminate EM]. }
  destruct C as [(-> & ->)|(-> & ->)]; (destruct a as [|[|[|a]]]; [| | |lia]); (destruct b as [|[|[|b]]]; [| | |lia]); (split; [intros (X & _); vm_compute in X; try discriminate X; cbn; tauto|]);
    intros X; cbn in X; (split; [|exact Logic.I]); try (vm_compute; reflexivity); exfalso; repeat (destruct X as [X|X]; [discriminate X|]); exact X.
Qed.

(** ** Where it does not *)
(** The domain of the protocol that is written is that of the values in its actions: all pairs of three values but (1, 1) give
    a protocol for two values; if there is nothing to do, a protocol for none. *)
Definition but_one : sexp := SNot (SAnd (left_is 1) (own_is 1)).
Theorem C91_domain_refuted :
  (exists n M e t, read_file [] (rarrays n) (repeat M n) (rfile n M (n - 1) e) <> None /\ proper_decls (repeat M n) [] (rarrays n) /\
     every_item (proper_item (repeat M n)) (at_first [] (rarrays n)) (rfile n M (n - 1) e) /\
     uniring_main (ring_of n M (n - 1)) 10 [] (rarrays n) (rfile n M (n - 1) e) = Some (Some t) /\ 1 <= pt_domsz t < M) /\
  (exists n M e t, read_file [] (rarrays n) (repeat M n) (rfile n M (n - 1) e) <> None /\ proper_decls (repeat M n) [] (rarrays n) /\
     every_item (proper_item (repeat M n)) (at_first [] (rarrays n)) (rfile n M (n - 1) e) /\
     uniring_main (ring_of n M (n - 1)) 10 [] (rarrays n) (rfile n M (n - 1) e) = Some (Some t) /\ 1 <= M /\ pt_domsz t = 0).
Proof.
  split.
  - exists 2, 3, but_one, (oput_protocon [(1, 1, 0)] 0). split; [vm_compute; discriminate|]. split; [apply rdecls; lia|]. split; [apply rfile_proper; try lia; cbn; tauto|].
    split; [vm_compute; reflexivity|vm_compute; lia].
  - exists 2, 2, (SName "true"), (oput_protocon [] 0). split; [vm_compute; discriminate|]. split; [apply rdecls; lia|]. split; [apply rfile_proper; try lia; cbn; tauto|].
    split; [vm_compute; reflexivity|vm_compute; lia].
Qed.
Print Assumptions C91_domain_refuted.

(** Processes that find different pairs legitimate: only the first one is looked at.  Here x[i] should be i. *)
Theorem C91_first_process_refuted : exists n M e t s s',
  proper_decls (repeat M n) [] (rarrays n) /\ every_item (proper_item (repeat M n)) (at_first [] (rarrays n)) (rfile n M (n - 1) e) /\ ring_head n M (rhead n M (n - 1)) /\
  uniring_main (ring_of n M (n - 1)) 10 [] (rarrays n) (rfile n M (n - 1) e) = Some (Some t) /\ pt_domsz t = M /\
  ok (repeat M n) s /\ legitimate (at_first [] (rarrays n)) (rfile n M (n - 1) e) s /\ exists acts, t = oput_protocon acts 0 /\ ring_step (protocol_of acts) s s'.
Proof.
  exists 2, 2, (x_own ?= SName "i"), (oput_protocon [(0, 1, 0); (1, 1, 0)] 0), [0; 1], [0; 0].
  split; [apply rdecls; lia|]. split; [apply rfile_proper; try lia; cbn; tauto|]. split; [apply (rhead_ring 2 2); lia|]. split; [vm_compute; reflexivity|]. split; [reflexivity|].
  split; [repeat constructor|]. split.
  - split; [|exact Logic.I]. intros m [<-|[<-|[]]]; (split; [vm_compute; reflexivity|exact Logic.I]).
  - eexists. split; [reflexivity|]. exists 1, 0, 1, 0. cbn. auto.
Qed.
Print Assumptions C91_first_process_refuted.

(** A ring in the other direction is accepted: its processes read x[i+1], those of the protocol that is written x[i-1]. *)
Theorem C91_direction_refuted : exists n M k e t s s',
  proper_decls (repeat M n) [] (rarrays n) /\ every_item (proper_item (repeat M n)) (at_first [] (rarrays n)) (rfile n M k e) /\
  uniring_main (ring_of n M k) 30 [] (rarrays n) (rfile n M k e) = Some (Some t) /\ pt_domsz t = M /\
  ok (repeat M n) s /\ legitimate (at_first [] (rarrays n)) (rfile n M k e) s /\ exists acts, t = oput_protocon acts 0 /\ ring_step (protocol_of acts) s s'.
Proof.
  exists 3, 3, 1, (pairs_are right_is cycle3), (oput_protocon [(0, 2, 0); (1, 0, 2); (1, 1, 2); (2, 1, 0); (2, 2, 0)] 0), [2; 1; 0], [2; 0; 0].
  split; [apply rdecls; lia|]. split; [apply rfile_proper; try lia; cbn; tauto|]. split; [vm_compute; reflexivity|]. split; [reflexivity|].
  split; [repeat constructor|]. split.
  - split; [|exact Logic.I]. intros m [<-|[<-|[<-|[]]]]; (split; [vm_compute; reflexivity|exact Logic.I]).
  - eexists. split; [reflexivity|]. exists 1, 2, 1, 0. cbn. tauto.
Qed.
Print Assumptions C91_direction_refuted.

(** Two arrays with different domains are accepted; the pairs are then not below the domain that is used, that of the first array,
    and the generator writes outside of its matrix (synthesize.cc:68-69).  Process i reads x[i] < 3 and writes y[i] < 2; y is declared first. *)
Definition two_process (i : nat) : process := mkProcess 0 [2 + i; i] (Cst true) (Cst false) (Cst false) (Cst false) (Cst false).
Definition two_kind : pcsymm :=
  {| accs := [{| a_type := ReadAccess; a_role := Direct; a_dom := 3 |}; {| a_type := WriteAccess; a_role := Direct; a_dom := 2 |}]; symms := [] |}.
Definition two_net : network := mkNetwork [2; 2; 3; 3] [Direct; Direct; Direct; Direct] [two_kind] (map two_process [0; 1]).
Definition two_arrays : list (string * list nat) := [("y", [0; 1]); ("x", [2; 3])].
Definition two_file : list item :=
  [Inside (mkHead two_net "i" [] (map (fun i => mkMembr (two_process i) i (Z.of_nat i)) [0; 1])) [Legit decl_mode (SAnd (x_own ?= SNat 2) (SAref "y" (SName "i") ?= SNat 0))]].
Theorem C91_range_refuted : exists N consts arrays l Y Ps fuel M legits, inhabited (vdoms N) /\ proper_decls (vdoms N) consts arrays /\
  every_item (proper_item (vdoms N)) (at_first consts arrays) l /\ read_file consts arrays (vdoms N) l = Some (Y, Ps) /\
  ReadUniRing N fuel Y Ps = Some (Some (M, legits)) /\ ~ in_range M legits.
Proof.
  exists two_net, [], two_arrays, two_file.
  assert (X : match read_file [] two_arrays (vdoms two_net) two_file with Some (Y, Ps) => ReadUniRing two_net 37 Y Ps | None => None end = Some (Some (2, [(2, 0)]))) by (vm_compute; reflexivity).
  destruct (read_file [] two_arrays (vdoms two_net) two_file) as [(Y, Ps)|] eqn:E; [|discriminate X]. exists Y, Ps, 37, 2, [(2, 0)].
  split; [repeat constructor|]. split; [|split; [|split; [reflexivity|split; [exact X|]]]].
  - constructor; cbn.
    + discriminate.
    + intros x l. destruct (String.eqb x "y"); [|destruct (String.eqb x "x"); [|discriminate]]; intros Z; injection Z as <-; (split; [discriminate|repeat constructor]).
    + auto.
  - split; [|exact Logic.I]. split; [|constructor; [cbn; tauto|constructor]]. constructor.
    + reflexivity.
    + constructor.
    + reflexivity.
    + intros m [<-|[<-|[]]]; (constructor; [reflexivity|repeat constructor|vm_compute; constructor; [intros []|constructor]]).
    + intros m [<-|[<-|[]]]; eexists _, _; reflexivity.
    + intros x l [].
  - intros R. destruct (R 2 0 (or_introl eq_refl)). lia.
Qed.
Print Assumptions C91_range_refuted.
