(** C91: the ring synthesis program, from file to file. *)
From Coq Require Import NArith.
From Verif Require Import UdpModel UdpSpec.
From Coq Require Import String List Arith Bool ZArith Lia.
From Verif Require Import FinLib Radix ParseModel AccessModel AccessSpec PrintModel FmlaModel FmlaSpec FmlaProofs FmlaProofs2 FmlaProofs3 FmlaProofs4 FmlaProps
  ActModel ActSpec NetModel NetSpec CandProofs GivenProofs IntModel ExprModel ExprSpec ReachSpec CmdModel CmdSpec CmdProofs4 DeclModel DeclSpec DeclProofs DeclProofs4 DeclProps
  UniModel UniSpec UniProofs LivelockSpec TileSpec SynthModel SynthSpec SynthProofs SynthProps WangSpec UtextModel UtextSpec UtextProps RsynModel RsynSpec RsynProofs.
Import ListNotations.
Local Open Scope list_scope.
Local Open Scope string_scope.
Local Open Scope nat_scope.

Section File.
Variables (consts : list (string * list Z)) (arrays : list (string * list nat)) (l : list item).
Variables (Y : sys_state) (Ps : list pc_state) (G : scope) (h : pc_head) (body : list stmt).
Notation N := (h_net h).
Notation ds := (vdoms (h_net h)).
Notation G0 := (at_first consts arrays).
Hypothesis INH : inhabited ds.
Hypothesis PD : proper_decls ds consts arrays.
Hypothesis PR : every_item (proper_item ds) G0 l.
Hypothesis E : read_file consts arrays ds l = Some (Y, Ps).
Hypothesis ONE : only_kind G0 l G h body.

(** A file is accepted if and only if nobody can act, there are two processes at least, the invariants outside the processes
    add nothing, and the first process reads one variable and writes another. *)
Theorem C91_accepts : forall fuel, length (assignments ds) < fuel -> Forall (fun d => d <= 256) ds ->
  exists r, ReadUniRing N fuel Y Ps = Some r /\
  (r <> None <-> no_actions ds G0 l /\ 2 <= length (h_membs h) /\
     (forall s, ok ds s -> (legitimate G0 l s <-> forall m, In m (h_membs h) -> content h G body m s)) /\
     exists m left own, nth_error (h_membs h) 0 = Some m /\ reads_writes N (m_pc m) left own) /\
  forall M legits, r = Some (M, legits) -> M = nth 0 ds 0 /\
     exists m left own, nth_error (h_membs h) 0 = Some m /\ reads_writes N (m_pc m) left own /\ NoDup legits /\
     forall a b, In (a, b) legits <-> exists s, ok ds s /\ content h G body m s /\ nth left s 0 = a /\ nth own s 0 = b.
Proof.
  intros fuel F SM. pose proof (direct_none consts arrays l Y Ps h INH PD PR E) as DN.
  destruct (members consts arrays l Y Ps G h body INH PD PR E ONE) as (P & -> & MS).
  pose proof (same_invariant consts arrays l Y [P] G h body INH PD PR E P MS) as SI.
  assert (LEN : length (h_membs h) = length (k_membs P)) by (clear - MS; induction MS; cbn; auto).
  pose proof (only_kind_head ds _ _ _ _ _ ONE PR) as PH.
  unfold ReadUniRing. destruct (sat_ck ds (t_direct (y_totals Y))) eqn:E1.
  { exists None. split; auto. split; [|discriminate]. split; [intros X; contradiction X; auto|]. intros (X & _). apply DN in X. discriminate X. }
  destruct (Nat.ltb_spec (length (k_membs P)) 2) as [L|L].
  { exists None. split; auto. split; [|discriminate]. split; [intros X; contradiction X; auto|]. intros (_ & X & _). lia. }
  destruct (equiv_ck ds (invariant_of P) (y_invariant Y)) eqn:E2; cbn [negb].
  2: { exists None. split; auto. split; [|discriminate]. split; [intros X; contradiction X; auto|]. intros (_ & _ & X & _). apply SI in X. discriminate X. }
  pose proof (proj1 SI eq_refl) as SI'. pose proof (proj1 DN eq_refl) as DN'. clear SI DN E1 E2.
  destruct (h_membs h) as [|m ms] eqn:EH; [cbn in LEN; lia|].
  destruct (k_membs P) as [|m' ms'] eqn:EK; [cbn in L; lia|]. inversion MS as [|? ? ? ? S0 _]; subst.
  destruct S0 as [_ _ MK MV (_ & MST) _ MI _ _ _ _].
  assert (PP : proper_process N (m_pc m)) by (apply (ph_process _ _ _ PH); rewrite EH; left; auto).
  destruct PP as [PL PW _]. assert (KE : kind_of N (m_pc (mb_pc m')) = kind_of N (m_pc m)) by (unfold kind_of; rewrite MK; auto).
  cbv zeta. rewrite KE. set (K := kind_of N (m_pc m)) in *.
  assert (WL : forall w, In w (wmap K) -> w < nr K) by (intros w I; unfold wmap in I; apply filter_In in I; destruct I as (I & _); apply in_seq in I; lia).
  destruct (Nat.eqb_spec (nw K) 1) as [E1|E1]; cbn [negb].
  2: { exists None. split; auto. split; [|discriminate]. split; [intros X; contradiction X; auto|]. intros (_ & _ & _ & m0 & le & ow & X & RW).
       injection X as <-. exfalso. apply E1. unfold reads_writes in RW. fold K in RW. unfold nw. destruct RW as [(_ & X & _)|(_ & X & _)]; rewrite X; reflexivity. }
  destruct (Nat.eqb_spec (nr K) 2) as [E2|E2]; cbn [negb].
  2: { exists None. split; auto. split; [|discriminate]. split; [intros X; contradiction X; auto|]. intros (_ & _ & _ & m0 & le & ow & X & RW).
       injection X as <-. exfalso. apply E2. destruct RW as [(X & _)|(X & _)]; exact X. }
  assert (RW : exists left own, reads_writes N (m_pc m) left own /\ rvbl_indices N (m_pc (mb_pc m')) = [left; own]).
  { unfold rvbl_indices, reads_writes. rewrite KE. fold K. unfold rvbl. rewrite MV. rewrite E2 in PL. destruct (p_vbls (m_pc m)) as [|u [|v [|]]]; try discriminate PL.
    unfold nw in E1. destruct (wmap K) as [|w [|]]; try discriminate E1. specialize (WL w (or_introl eq_refl)). rewrite E2 in WL. cbn [nth].
    destruct w as [|[|]]; [exists v, u|exists u, v|lia]; cbn [Nat.eqb]; auto. }
  destruct RW as (le & ow & RW & ->).
  assert (W2 : wf_ids ds [le; ow]).
  { destruct RW as [(_ & _ & X)|(_ & _ & X)]; rewrite X in PW; auto. inversion PW as [|? ? A B]; subst. inversion B; subst. repeat constructor; auto. }
  assert (SM2 : nth le ds 0 <= 256 /\ nth ow ds 0 <= 256).
  { rewrite Forall_forall in SM. inversion W2 as [|? ? A B]; subst. inversion B; subst. split; apply SM, nth_In; auto. }
  destruct (legit_loop_spec N INH le ow W2 SM2 fuel (mb_invariant m') MST) as (legits & -> & ND & HL).
  { enough (count N (fun t => eval (mb_invariant m') (join t t t)) <= length (assignments ds)) by lia. unfold count. apply SynthProofs.filter_length_le. }
  cbn [option_map]. eexists. split; [reflexivity|]. split.
  - split; [intros _|discriminate]. split; auto. split; [rewrite LEN; exact L|]. split; auto. exists m, le, ow. auto.
  - intros M lg X. injection X as <- <-. split; auto. exists m, le, ow. split; auto. split; auto. split; auto. intros a b. rewrite HL. split.
    + intros (s & S & H & X). exists s. split; auto. split; auto. apply (MI s S). exact H.
    + intros (s & S & H & X). exists s. split; auto. split; auto. apply (MI s S). exact H.
Qed.

(** For a ring whose processes all find the same pairs legitimate, the pairs found are these, and a state of the ring is legitimate
    by the file if its pairs are. *)
Lemma ok_repeat : forall M n s, ok (repeat M n) s <-> length s = n /\ in_domain M s.
Proof.
  intros M n s. unfold ok, in_domain. split.
  - intros F. assert (X : forall d, Forall2 lt s d -> length s = length d) by (clear; intros d H; induction H; cbn; auto).
    pose proof (X _ F) as L. rewrite repeat_length in L. split; auto. subst n. clear X. induction s as [|x s IH]; constructor; cbn in F; inversion F; subst; auto.
  - intros (<- & F). induction F; cbn; constructor; auto.
Qed.
Lemma pred_lt : forall n i, i < n -> pred_of n i < n.
Proof. intros n i L. unfold pred_of. destruct (i =? 0); lia. Qed.
Lemma pred_other : forall n i, 2 <= n -> i < n -> pred_of n i <> i.
Proof. intros n i L I. unfold pred_of. destruct (Nat.eqb_spec i 0); lia. Qed.
Lemma written_pair : forall N p a b c d, reads_writes N p a b -> reads_writes N p c d -> a = c /\ b = d.
Proof. intros N0 p a b c d [(_ & A & B)|(_ & A & B)] [(_ & C & D)|(_ & C & D)]; try congruence; rewrite B in D; injection D; auto. Qed.

Theorem C91_pairs : forall fuel n M Good, length (assignments ds) < fuel -> 2 <= n -> M <= 255 -> ring_head n M h -> same_demand n Good h G body ->
  no_actions ds G0 l -> (forall s, ok ds s -> (legitimate G0 l s <-> forall m, In m (h_membs h) -> content h G body m s)) ->
  exists legits, ReadUniRing N fuel Y Ps = Some (Some (M, legits)) /\ lists_good M Good legits /\
    forall s, ok ds s -> (legitimate G0 l s <-> legit_state legits s).
Proof.
  intros fuel n M Good F L2 ML [RD RM RA] SD NA LG. assert (SM : Forall (fun d => d <= 256) ds) by (rewrite RD; apply Forall_forall; intros d I; apply repeat_spec in I; lia).
  destruct (C91_accepts fuel F SM) as (r & ER & ACC & PAIRS).
  assert (exists m, nth_error (h_membs h) 0 = Some m) as (m & M0) by (destruct (h_membs h); cbn in *; [lia|eauto]).
  assert (NR : r <> None). { apply ACC. split; auto. split; [lia|]. split; auto. exists m, (pred_of n 0), 0. split; auto. }
  destruct r as [(M', legits)|]; [|contradiction]. destruct (PAIRS M' legits eq_refl) as (-> & m' & le & ow & M0' & RW & ND & HL).
  replace m' with m in * by congruence. clear M0'. destruct (written_pair _ _ _ _ _ _ RW (RA 0 m M0)) as (-> & ->).
  assert (ME : nth 0 ds 0 = M) by (rewrite RD; destruct n; [lia|reflexivity]). rewrite ME in ER. exists legits. split; auto.
  assert (LGOOD : lists_good M Good legits).
  { split; auto. intros a b. rewrite HL. split.
    - intros (s & S & C & <- & <-). rewrite RD in S. apply ok_repeat in S. destruct S as (LS & DS). unfold in_domain in DS. rewrite Forall_forall in DS.
      split; [apply DS, nth_In; rewrite LS; apply pred_lt; lia|]. split; [apply DS, nth_In; lia|]. apply (SD 0 m s M0); auto. rewrite RD. apply ok_repeat. split; auto. apply Forall_forall. auto.
    - intros (A & B & GD). set (s := upd (repeat a n) 0 b). assert (P0 : nth (pred_of n 0) s 0 = a).
      { unfold s. rewrite nth_upd_other by (intros X; apply (pred_other n 0); auto; lia). apply nth_error_nth with (d := 0). apply nth_error_repeat. apply pred_lt. lia. }
      assert (P1 : nth 0 s 0 = b) by (unfold s; apply nth_upd_same; rewrite repeat_length; lia).
      assert (S : ok ds s). { rewrite RD. apply ok_repeat. unfold s. split; [rewrite upd_length; apply repeat_length|]. destruct n; [lia|]. cbn. constructor; auto. apply Forall_forall. intros x I. apply repeat_spec in I. lia. }
      exists s. split; auto. split; auto. apply (SD 0 m s M0 S). rewrite P0, P1. auto. }
  split; auto. intros s S. rewrite (LG s S). pose proof S as S'. rewrite RD in S'. apply ok_repeat in S'. destruct S' as (LS & DS). unfold in_domain in DS. rewrite Forall_forall in DS.
  unfold legit_state, legit. split.
  - intros H p Lp. destruct (nth_error (h_membs h) p) as [mp|] eqn:EP; [|apply nth_error_None in EP; lia].
    apply LGOOD. rewrite LS in *. split; [apply DS, nth_In; rewrite LS; apply pred_lt; auto|]. split; [apply DS, nth_In; lia|]. apply (SD p mp s EP S). apply H. apply nth_error_In in EP. auto.
  - intros H mp I. apply In_nth_error in I. destruct I as (p & EP). assert (Lp : p < length s) by (rewrite LS, <- RM; apply nth_error_Some; congruence).
    apply (SD p mp s EP S). specialize (H p Lp). rewrite LS in H. apply LGOOD in H. tauto.
Qed.
End File.
Print Assumptions C91_accepts.
Print Assumptions C91_pairs.
