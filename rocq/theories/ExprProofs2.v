(** Which expressions are accepted, and which variables they can depend on. *)
From Coq Require Import String List Arith Bool ZArith Lia.
From Verif Require Import FinLib Radix FmlaModel FmlaSpec FmlaProofs FmlaProofs2 FmlaProofs3 FmlaProofs4 FmlaProps
  IntModel IntSpec IntProofs IntProps ExprModel ExprSpec ExprProofs.
Import ListNotations.
Local Open Scope list_scope.

Lemma init_vbls : forall a b a' m, intmap_init_op a b = Some (a', m) -> incl (i_vbls a') (i_vbls a ++ i_vbls b).
Proof.
  assert (MV : forall bv bd a, incl (i_vbls (fst (merge_vbls bv bd a))) (i_vbls a ++ bv)).
  { induction bv as [|v bv IH]; intros [|d bd] a; cbn [merge_vbls fst].
    - apply incl_appl, incl_refl.
    - apply incl_appl, incl_refl.
    - apply incl_appl, incl_refl.
    - destruct (position v (i_vbls a)) as [j|].
      + specialize (IH bd a). destruct (merge_vbls bv bd a) as (a', m). cbn [fst] in *. intros x H. apply IH in H. apply in_app_or in H. apply in_or_app. cbn. tauto.
      + match goal with |- context [merge_vbls bv bd ?q] => specialize (IH bd q); destruct (merge_vbls bv bd q) as (a', m) end.
        cbn [fst i_vbls] in *. intros x H. apply IH in H. rewrite <- app_assoc in H. exact H. }
  intros a b a' m E. unfold intmap_init_op in E. destruct (_ || _); [discriminate|]. destruct (_ && _).
  - injection E as <- <-. cbn. apply incl_appl, incl_refl.
  - destruct (_ && _); [|discriminate]. specialize (MV (i_vbls b) (i_doms b) a). destruct (merge_vbls _ _ _). injection E as <- <-. exact MV.
Qed.
Lemma binop_vbls : forall a b op c, defeq_binop a b op = Some c -> incl (i_vbls c) (i_vbls a ++ i_vbls b).
Proof.
  intros a b op c E. unfold defeq_binop in E. destruct (intmap_init_op a b) as [(a', m)|] eqn:I; [|discriminate].
  destruct (all_some _); [|discriminate]. cbn in E. injection E as <-. cbn. eapply init_vbls; eauto.
Qed.

Section Sound.
Variable ds : list nat.
Hypothesis INH : inhabited ds.
Notation ok := (FmlaSpec.ok ds).
Variable F : file.
Variable P : option pcuse.
Variable G : scope.
Hypothesis D : declares ds F P G.
Notation evalf := (eval_f ds F P).
Notation evali := (eval_i ds F P).
Notation now pf s := (FmlaModel.eval pf (join s s s)).
Notation snd_ := (sound ds INH F P G D).
Definition readable (v : nat) : Prop := match P with Some u => In v (u_rvbls u) | None => True end.

Lemma loop_accept : forall x q ev b, assoc x b = None ->
  forall vs acc m, (forall y, y <> x -> assoc y m = assoc y b) ->
  (forall v m, In v vs -> same_map m ((x, v) :: b) -> exists pf m', ev m = Some (pf, m') /\ same_map m' ((x, v) :: b)) ->
  exists pf m', quant_loop x q ev vs acc m = Some (pf, m').
Proof.
  intros x q ev b NB. induction vs as [|v vs IH]; intros acc m M EV; cbn; [eauto|].
  destruct (EV v (set_key x v m)) as (pf & m' & E & S); [cbn; auto| |].
  { intros y. rewrite assoc_set. cbn [assoc]. destruct (String.eqb_spec y x); auto. }
  rewrite E. apply IH.
  - intros y N. rewrite S. cbn [assoc]. destruct (String.eqb_spec y x); [contradiction|auto].
  - intros w m0 H. apply EV. cbn. auto.
Qed.

Lemma accepts : forall e m b used, same_map m b -> (forall x, assoc x b <> None -> In x used) -> fresh_indices used e ->
  (total_b ds G readable b e -> exists pf m', evalf m e = Some (pf, m')) /\
  (total_i ds G readable b e -> exists z m', evali m e = Some (z, m') /\ (mentions_vbl G e = false -> i_vbls z = [])).
Proof.
  destruct (some_state ds INH) as (s0 & S0).
  induction e as [x|n|a IHa|a IHa|a IHa|a IHa c IHc|a IHa c IHc|a IHa c IHc|a IHa c IHc|a IHa c IHc|r a IHa c IHc|q x n IHn body IHb|a IHa|op a IHa c IHc|c IHc a IHa d IHd|x i IHi];
    intros m b used M U FR; (split; intros T); cbn [total_b total_i] in T; try contradiction; cbn [fresh_indices] in FR;
    first [rewrite evalf_eq | rewrite evali_eq]; cbv beta iota.
  - pose proof (named_pred ds F P G D x) as N. destruct (lookup_pfmla F P x) as [pf|]; [cbn; eauto|]. exfalso. apply (T s0 S0). auto.
  - rewrite (named_int ds F P G D m b x M). destruct (int_named G b x) as [v|]; [|contradiction]. cbn. eauto.
  - eauto.
  - destruct (IHa m b used M U FR) as (H & _). auto.
  - destruct (IHa m b used M U FR) as (H & _). auto.
  - destruct (IHa m b used M U FR) as (_ & H). destruct (H T) as (z & m' & E & V). exists z, m'. auto.
  - destruct (IHa m b used M U FR) as (H & _). destruct (H T) as (pf & m' & ->). eauto.
  - destruct T as (TA & TC), FR as (FA & FC). destruct (IHa m b used M U FA) as (H & _). destruct (H TA) as (pf & m' & E). rewrite E.
    destruct (negb _); [eauto|]. destruct (proj1 (snd_ a m b used M U FA) _ _ E) as (M1 & _).
    destruct (IHc m' b used M1 U FC) as (H2 & _). destruct (H2 TC) as (pf2 & m2 & ->). eauto.
  - destruct T as (TA & TC), FR as (FA & FC). destruct (IHa m b used M U FA) as (H & _). destruct (H TA) as (pf & m' & E). rewrite E.
    destruct (tautology_ck _ _); [eauto|]. destruct (proj1 (snd_ a m b used M U FA) _ _ E) as (M1 & _).
    destruct (IHc m' b used M1 U FC) as (H2 & _). destruct (H2 TC) as (pf2 & m2 & ->). eauto.
  - destruct T as (TA & TC), FR as (FA & FC). destruct (IHa m b used M U FA) as (H & _). destruct (H TA) as (pf & m' & E). rewrite E.
    destruct (negb _); [eauto|]. destruct (proj1 (snd_ a m b used M U FA) _ _ E) as (M1 & _).
    destruct (IHc m' b used M1 U FC) as (H2 & _). destruct (H2 TC) as (pf2 & m2 & ->). eauto.
  - destruct T as (TA & TC), FR as (FA & FC). destruct (IHa m b used M U FA) as (H & _). destruct (H TA) as (pf & m' & E). rewrite E.
    destruct (proj1 (snd_ a m b used M U FA) _ _ E) as (M1 & _).
    destruct (IHc m' b used M1 U FC) as (H2 & _). destruct (H2 TC) as (pf2 & m2 & ->). eauto.
  - destruct T as (TA & TC), FR as (FA & FC). destruct (IHa m b used M U FA) as (H & _). destruct (H TA) as (pf & m' & E). rewrite E.
    destruct (proj1 (snd_ a m b used M U FA) _ _ E) as (M1 & _).
    destruct (IHc m' b used M1 U FC) as (H2 & _). destruct (H2 TC) as (pf2 & m2 & ->). eauto.
  - destruct T as (TA & TC), FR as (FA & FC). destruct (IHa m b used M U FA) as (_ & H). destruct (H TA) as (z & m' & E & _). rewrite E.
    destruct (proj2 (snd_ a m b used M U FA) _ _ E) as (M1 & (TB & _)).
    destruct (IHc m' b used M1 U FC) as (_ & H2). destruct (H2 TC) as (z2 & m2 & E2 & _). rewrite E2.
    destruct (proj2 (snd_ c m' b used M1 U FC) _ _ E2) as (M2 & (TB2 & _)).
    assert (X : exists pf, cmp_fmla ds r z z2 = Some pf).
    { destruct r; cbn [cmp_fmla]; match goal with |- context [cmp ds z z2 ?l ?e ?g] => destruct (cmp_spec ds INH z z2 l e g TB TB2) as (pf & X & _) end; eauto. }
    destruct X as (pf & ->). cbn. eauto.
  - destruct T as (TN & NV & POS & TB), FR as (NI & FN & FB). destruct (IHn m b used M U FN) as (_ & H). destruct (H TN) as (z & m1 & E & V). rewrite E.
    destruct (proj2 (snd_ n m b used M U FN) _ _ E) as (M1 & (TZ & VAL)). destruct (no_vbls_single ds z TZ (V NV)) as (k & IM). rewrite IM.
    assert (VK : value_of G b n s0 = Some k) by (rewrite VAL by auto; f_equal; apply (single ds z k TZ IM s0 S0)).
    specialize (POS s0 k S0 VK). destruct (Z.ltb_spec 0 k) as [_|]; [|lia].
    assert (NB : assoc x b = None) by (destruct (assoc x b) eqn:Q; auto; exfalso; apply NI, U; rewrite Q; discriminate).
    apply (loop_accept x q _ b NB); [auto|]. intros v m0 HV M0. cbn [of_range i_map] in HV. apply in_map_iff in HV. destruct HV as (w & <- & HW). apply in_seq in HW.
    assert (U' : forall y, assoc y ((x, Z.of_nat w) :: b) <> None -> In y (x :: used)).
    { intros y. cbn [assoc]. destruct (String.eqb_spec y x) as [->|]; [cbn; auto|]. intros Y. right. auto. }
    destruct (IHb m0 _ _ M0 U' FB) as (HB & _). destruct HB as (pf & m' & EB); [apply (TB s0 k (Z.of_nat w) S0 VK); lia|].
    exists pf, m'. split; auto. exact (proj1 (proj1 (snd_ body m0 _ _ M0 U' FB) _ _ EB)).
  - destruct (IHa m b used M U FR) as (_ & H). destruct (H T) as (z & m' & -> & V). exists (negate z), m'. split; auto.
  - destruct T as (TA & TC & DEF), FR as (FA & FC). destruct (IHa m b used M U FA) as (_ & H). destruct (H TA) as (z & m' & E & V). rewrite E.
    destruct (proj2 (snd_ a m b used M U FA) _ _ E) as (M1 & (TB & VAL)).
    destruct (IHc m' b used M1 U FC) as (_ & H2). destruct (H2 TC) as (z2 & m2 & E2 & V2). rewrite E2.
    destruct (proj2 (snd_ c m' b used M1 U FC) _ _ E2) as (M2 & (TB2 & VAL2)).
    destruct (defeq_binop z z2 op) as [w|] eqn:BO.
    + cbn. exists w, m2. split; auto. intros MV. cbn [mentions_vbl] in MV. apply orb_false_iff in MV. destruct MV as (MV1 & MV2).
      pose proof (binop_vbls z z2 op w BO) as I. rewrite (V MV1), (V2 MV2) in I. destruct (i_vbls w) as [|y l]; auto. destruct (I y); cbn; auto.
    + exfalso. destruct (binop_none ds INH z z2 op TB TB2 BO) as (s & S & N). rewrite op_agree in N. eapply DEF; eauto.
  - destruct T as (TC & T), FR as (FC & FA & FD). destruct (IHc m b used M U FC) as (H & _). destruct (H TC) as (pf & m1 & E). rewrite E.
    destruct (proj1 (snd_ c m b used M U FC) _ _ E) as (M1 & (ST & TR)). destruct T as [(CT & TA)|(CF & TD)].
    + rewrite (static_taut ds INH pf ST) by (intros s S; specialize (CT s S); rewrite TR in CT by auto; congruence).
      destruct (IHa m1 b used M1 U FA) as (_ & H2). destruct (H2 TA) as (z & m' & E2 & V). exists z, m'. split; auto.
      cbn [mentions_vbl]. rewrite orb_false_iff. intros (MV & _). auto.
    + assert (UNS : forall s, ok s -> now pf s = false) by (intros s S; specialize (CF s S); rewrite TR in CF by auto; congruence).
      destruct (tautology_ck ds pf) eqn:TT; [exfalso; pose proof (taut_static ds INH pf TT s0 S0); rewrite UNS in *; auto; discriminate|].
      rewrite (sat_static ds INH pf ST UNS). cbn [negb].
      destruct (IHd m1 b used M1 U FD) as (_ & H2). destruct (H2 TD) as (z & m' & E2 & V). exists z, m'. split; auto.
      cbn [mentions_vbl]. rewrite orb_false_iff. intros (_ & MV). auto.
  - destruct T as (TI & NV & T). destruct (IHi m b used M U FR) as (_ & H). destruct (H TI) as (z & m1 & E & V). rewrite E.
    destruct (proj2 (snd_ i m b used M U FR) _ _ E) as (M1 & (TZ & VAL)). destruct (no_vbls_single ds z TZ (V NV)) as (k & IM). rewrite IM.
    assert (VK : value_of G b i s0 = Some k) by (rewrite VAL by auto; f_equal; apply (single ds z k TZ IM s0 S0)).
    rewrite (d_consts _ _ _ _ D). pose proof (d_array_once _ _ _ _ D x) as AO. cbn [mentions_vbl].
    destruct (assoc x (g_arrays G)) as [l|] eqn:AL.
    + rewrite AO by discriminate. unfold lookup_vbl. rewrite (d_arrays _ _ _ _ D), AL.
      destruct (d_members _ _ _ _ D x l AL) as (NE & _). destruct (member_some _ l k NE) as (v & MK & _).
      unfold umod_int. fold (member l k). rewrite MK. specialize (T s0 k v S0 VK MK). unfold readable in T.
      destruct P as [u|]; [|cbn; eexists _, _; split; [reflexivity|discriminate]].
      assert (EX : existsb (Nat.eqb v) (u_rvbls u) = true) by (apply existsb_exists; exists v; split; [auto|apply Nat.eqb_refl]).
      rewrite EX. cbn. eexists _, _; split; [reflexivity|discriminate].
    + destruct (assoc x (g_consts G)) as [l|] eqn:CL; [|contradiction]. pose proof (d_nonempty _ _ _ _ D x l CL) as NE.
      destruct (member_some _ l k NE) as (v & MK & _). unfold umod_int. fold (member l k). rewrite MK. cbn. eauto.
Qed.

(** ** What a process can depend on *)
Definition agree (vs : list nat) (s t : list nat) : Prop := forall v, In v vs -> nth v s 0 = nth v t 0.
Definition local_to (vs : list nat) (pf : fmla) : Prop := forall s t, ok s -> ok t -> agree vs s t -> now pf s = now pf t.
Variable u : pcuse.
Hypothesis PU : P = Some u.
Hypothesis LOC : forall x pf, lookup_pfmla F P x = Some pf -> local_to (u_rvbls u) pf.

Lemma loop_local : forall x q ev b, assoc x b = None ->
  (forall m v pf m', same_map m ((x, v) :: b) -> ev m = Some (pf, m') -> same_map m' ((x, v) :: b) /\ local_to (u_rvbls u) pf) ->
  forall vs acc m pf m', (forall y, y <> x -> assoc y m = assoc y b) -> local_to (u_rvbls u) (fst acc) -> local_to (u_rvbls u) (snd acc) ->
  quant_loop x q ev vs acc m = Some (pf, m') -> local_to (u_rvbls u) pf.
Proof.
  intros x q ev b NB EV vs. induction vs as [|v vs IH]; intros acc m pf m' M S1 S2 E; cbn in E.
  - injection E as <- <-. auto.
  - destruct (ev (set_key x v m)) as [(pf_c, m1)|] eqn:EE; [|discriminate]. destruct (EV (set_key x v m) v pf_c m1) as (M1 & SC); auto.
    { intros y. rewrite assoc_set. cbn [assoc]. destruct (String.eqb_spec y x); auto. }
    eapply IH; [| | |exact E].
    + intros y N. rewrite M1. cbn [assoc]. destruct (String.eqb_spec y x); [contradiction|auto].
    + intros s t S T A. pose proof (quant_step_eval q acc pf_c (join s s s)) as Q. pose proof (quant_step_eval q acc pf_c (join t t t)) as Q'.
      rewrite (S1 s t), (S2 s t), (SC s t) in Q by auto. rewrite <- Q' in Q. congruence.
    + intros s t S T A. pose proof (quant_step_eval q acc pf_c (join s s s)) as Q. pose proof (quant_step_eval q acc pf_c (join t t t)) as Q'.
      rewrite (S1 s t), (S2 s t), (SC s t) in Q by auto. rewrite <- Q' in Q. congruence.
Qed.
Lemma entry_agree : forall z s t, incl (i_vbls z) (u_rvbls u) -> agree (u_rvbls u) s t -> entry z s = entry z t.
Proof. intros z s t I A. unfold entry. f_equal. f_equal. apply map_ext_in. intros v H. apply A, I. auto. Qed.

Lemma access : forall e m b used, same_map m b -> (forall x, assoc x b <> None -> In x used) -> fresh_indices used e ->
  (forall pf m', evalf m e = Some (pf, m') -> local_to (u_rvbls u) pf) /\
  (forall z m', evali m e = Some (z, m') -> incl (i_vbls z) (u_rvbls u)).
Proof.
  induction e as [x|n|a IHa|a IHa|a IHa|a IHa c IHc|a IHa c IHc|a IHa c IHc|a IHa c IHc|a IHa c IHc|r a IHa c IHc|q x n IHn body IHb|a IHa|op a IHa c IHc|c IHc a IHa d IHd|x i IHi];
    intros m b used M U FR; (split; [intros pf m' E|intros z m' E]); (first [rewrite evalf_eq in E | rewrite evali_eq in E]); cbv beta iota in E; try discriminate E; cbn [fresh_indices] in FR.
  - destruct (lookup_pfmla F P x) as [pf'|] eqn:L; [|discriminate]. cbn in E. injection E as <- <-. eauto.
  - destruct (lookup_int F P m x); [|discriminate]. cbn in E. injection E as <- <-. intros ? [].
  - injection E as <- <-. intros ? [].
  - destruct (IHa m b used M U FR) as (H & _). eauto.
  - destruct (IHa m b used M U FR) as (H & _). eauto.
  - destruct (IHa m b used M U FR) as (_ & H). eauto.
  - destruct (evalf m a) as [(p, m1)|] eqn:EA; [|discriminate]. injection E as <- <-. destruct (IHa m b used M U FR) as (H & _). specialize (H _ _ EA).
    intros s t S T A. rewrite !eval_not, (H s t S T A). auto.
  - destruct FR as (FA & FC). destruct (evalf m a) as [(p, m1)|] eqn:EA; [|discriminate]. destruct (IHa m b used M U FA) as (H & _). specialize (H _ _ EA).
    destruct (negb _); [injection E as <- <-; auto|]. destruct (evalf m1 c) as [(p2, m2)|] eqn:EC; [|discriminate]. injection E as <- <-.
    destruct (proj1 (snd_ a m b used M U FA) _ _ EA) as (M1 & _). destruct (IHc m1 b used M1 U FC) as (H2 & _). specialize (H2 _ _ EC).
    intros s t S T A. rewrite !eval_and, (H s t S T A), (H2 s t S T A). auto.
  - destruct FR as (FA & FC). destruct (evalf m a) as [(p, m1)|] eqn:EA; [|discriminate]. destruct (IHa m b used M U FA) as (H & _). specialize (H _ _ EA).
    destruct (tautology_ck _ _); [injection E as <- <-; auto|]. destruct (evalf m1 c) as [(p2, m2)|] eqn:EC; [|discriminate]. injection E as <- <-.
    destruct (proj1 (snd_ a m b used M U FA) _ _ EA) as (M1 & _). destruct (IHc m1 b used M1 U FC) as (H2 & _). specialize (H2 _ _ EC).
    intros s t S T A. rewrite !eval_or, (H s t S T A), (H2 s t S T A). auto.
  - destruct FR as (FA & FC). destruct (evalf m a) as [(p, m1)|] eqn:EA; [|discriminate]. destruct (IHa m b used M U FA) as (H & _). specialize (H _ _ EA).
    destruct (negb _); [injection E as <- <-; intros s t _ _ _; reflexivity|]. destruct (evalf m1 c) as [(p2, m2)|] eqn:EC; [|discriminate]. injection E as <- <-.
    destruct (proj1 (snd_ a m b used M U FA) _ _ EA) as (M1 & _). destruct (IHc m1 b used M1 U FC) as (H2 & _). specialize (H2 _ _ EC).
    intros s t S T A. rewrite !eval_or, !eval_not, (H s t S T A), (H2 s t S T A). auto.
  - destruct FR as (FA & FC). destruct (evalf m a) as [(p, m1)|] eqn:EA; [|discriminate]. destruct (IHa m b used M U FA) as (H & _). specialize (H _ _ EA).
    destruct (evalf m1 c) as [(p2, m2)|] eqn:EC; [|discriminate]. injection E as <- <-.
    destruct (proj1 (snd_ a m b used M U FA) _ _ EA) as (M1 & _). destruct (IHc m1 b used M1 U FC) as (H2 & _). specialize (H2 _ _ EC).
    intros s t S T A. rewrite !eval_xnor, (H s t S T A), (H2 s t S T A). auto.
  - destruct FR as (FA & FC). destruct (evalf m a) as [(p, m1)|] eqn:EA; [|discriminate]. destruct (IHa m b used M U FA) as (H & _). specialize (H _ _ EA).
    destruct (evalf m1 c) as [(p2, m2)|] eqn:EC; [|discriminate]. injection E as <- <-.
    destruct (proj1 (snd_ a m b used M U FA) _ _ EA) as (M1 & _). destruct (IHc m1 b used M1 U FC) as (H2 & _). specialize (H2 _ _ EC).
    intros s t S T A. rewrite !eval_xor, (H s t S T A), (H2 s t S T A). auto.
  - destruct FR as (FA & FC). destruct (evali m a) as [(y, m1)|] eqn:EA; [|discriminate]. destruct (IHa m b used M U FA) as (_ & H). specialize (H _ _ EA).
    destruct (evali m1 c) as [(y2, m2)|] eqn:EC; [|discriminate].
    destruct (proj2 (snd_ a m b used M U FA) _ _ EA) as (M1 & (TB & _)). destruct (IHc m1 b used M1 U FC) as (_ & H2). specialize (H2 _ _ EC).
    destruct (proj2 (snd_ c m1 b used M1 U FC) _ _ EC) as (M2 & (TB2 & _)).
    destruct (cmp_fmla ds r y y2) as [p|] eqn:CF; [|discriminate]. cbn in E. injection E as <- <-.
    assert (CM : exists l e g, cmp ds y y2 l e g = Some p) by (destruct r; cbn [cmp_fmla] in CF; eauto).
    destruct CM as (l & e & g & C1). destruct (cmp_spec ds INH y y2 l e g TB TB2) as (p' & C1' & C3). rewrite C1 in C1'. injection C1' as <-.
    intros s t S T A. apply iff_eqb. fold (meaning p s s s) (meaning p t t t). rewrite (C3 s s s S S S), (C3 t t t T T T).
    rewrite (entry_agree y s t H A), (entry_agree y2 s t H2 A). tauto.
  - destruct FR as (NI & FN & FB). destruct (evali m n) as [(z, m1)|] eqn:EN; [|discriminate].
    destruct (proj2 (snd_ n m b used M U FN) _ _ EN) as (M1 & _). destruct (i_map z) as [|k [|? ?]] eqn:IM; try discriminate.
    destruct (0 <? k)%Z; [|discriminate].
    assert (NB : assoc x b = None) by (destruct (assoc x b) eqn:Q; auto; exfalso; apply NI, U; rewrite Q; discriminate).
    eapply (loop_local x q (fun m => evalf m body) b NB); [|intros y _; apply M1| | |exact E].
    + intros m0 v pf0 m0' M0 E0. assert (U' : forall y, assoc y ((x, v) :: b) <> None -> In y (x :: used)).
      { intros y. cbn [assoc]. destruct (String.eqb_spec y x) as [->|]; [cbn; auto|]. intros Y. right. auto. }
      split; [exact (proj1 (proj1 (snd_ body m0 _ _ M0 U' FB) _ _ E0))|]. destruct (IHb m0 _ _ M0 U' FB) as (HB & _). eauto.
    + destruct q; intros ? ? ? ? ?; reflexivity.
    + destruct q; intros ? ? ? ? ?; reflexivity.
  - destruct (evali m a) as [(y, m1)|] eqn:EA; [|discriminate]. injection E as <- <-. destruct (IHa m b used M U FR) as (_ & H). exact (H _ _ EA).
  - destruct FR as (FA & FC). destruct (evali m a) as [(y, m1)|] eqn:EA; [|discriminate]. destruct (IHa m b used M U FA) as (_ & H). specialize (H _ _ EA).
    destruct (evali m1 c) as [(y2, m2)|] eqn:EC; [|discriminate].
    destruct (proj2 (snd_ a m b used M U FA) _ _ EA) as (M1 & _). destruct (IHc m1 b used M1 U FC) as (_ & H2). specialize (H2 _ _ EC).
    destruct (defeq_binop y y2 op) as [w|] eqn:BO; [|discriminate]. cbn in E. injection E as <- <-.
    intros v V. apply (binop_vbls _ _ _ _ BO) in V. apply in_app_or in V. destruct V; auto.
  - destruct FR as (FC & FA & FD). destruct (evalf m c) as [(p, m1)|] eqn:EC; [|discriminate].
    destruct (proj1 (snd_ c m b used M U FC) _ _ EC) as (M1 & _).
    destruct (tautology_ck ds p); [|destruct (negb _); [|discriminate]].
    + destruct (IHa m1 b used M1 U FA) as (_ & H). eauto.
    + destruct (IHd m1 b used M1 U FD) as (_ & H). eauto.
  - destruct (evali m i) as [(y, m1)|] eqn:EI; [|discriminate]. destruct (i_map y) as [|k [|? ?]]; try discriminate.
    destruct (assoc x (f_consts F)) as [l|].
    + destruct (nth_error _ _); [|discriminate]. cbn in E. injection E as <- <-. intros ? [].
    + destruct (lookup_vbl F P x k) as [v|] eqn:L; [|discriminate]. cbn in E. injection E as <- <-.
      unfold lookup_vbl in L. destruct (assoc x (f_arrays F)) as [l|]; [|discriminate]. destruct (nth_error _ _) as [w|]; [|discriminate].
      rewrite PU in L. destruct (existsb (Nat.eqb w) (u_rvbls u)) eqn:EX; [|discriminate]. injection L as ->.
      apply existsb_exists in EX. destruct EX as (w & W & Q). apply Nat.eqb_eq in Q. subst w. intros ? [<-|[]]. auto.
Qed.
End Sound.
