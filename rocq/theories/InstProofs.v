(** Proofs about the instances of a command line. *)
From Coq Require Import String List ZArith Bool Lia Ascii.
From Verif Require Import ExprModel InstModel InstSpec.
Import ListNotations.
Local Open Scope string_scope.
Local Open Scope list_scope.

(** ** Maps *)
Lemma ascii_lt_trans : forall a b c, Ascii.compare a b = Lt -> Ascii.compare b c = Lt -> Ascii.compare a c = Lt.
Proof. intros a b c. unfold Ascii.compare. rewrite !N.compare_lt_iff. lia. Qed.
Lemma ascii_eq : forall a b, Ascii.compare a b = Eq -> a = b.
Proof. intros a b H. unfold Ascii.compare in H. apply N.compare_eq in H. rewrite <- (ascii_N_embedding a), <- (ascii_N_embedding b). congruence. Qed.
Lemma ascii_refl : forall a, Ascii.compare a a = Eq.
Proof. intros a. unfold Ascii.compare. apply N.compare_refl. Qed.
Lemma compare_lt_trans : forall a b c, String.compare a b = Lt -> String.compare b c = Lt -> String.compare a c = Lt.
Proof.
  induction a as [|x a IH]; intros [|y b] [|z c]; cbn; try congruence.
  destruct (Ascii.compare x y) eqn:E1; try discriminate; destruct (Ascii.compare y z) eqn:E2; try discriminate; intros H1 H2.
  - apply ascii_eq in E1, E2. subst. rewrite ascii_refl. eauto.
  - apply ascii_eq in E1. subst. rewrite E2. reflexivity.
  - apply ascii_eq in E2. subst. rewrite E1. reflexivity.
  - rewrite (ascii_lt_trans _ _ _ E1 E2). reflexivity.
Qed.
Lemma compare_refl : forall a, String.compare a a = Eq.
Proof. induction a as [|x a IH]; cbn; [reflexivity|]. rewrite ascii_refl. exact IH. Qed.
Lemma compare_eq : forall a b, String.compare a b = Eq -> a = b.
Proof. intros a b. apply String.compare_eq_iff. Qed.
Lemma compare_gt : forall a b, String.compare a b = Gt -> String.compare b a = Lt.
Proof. intros a b H. rewrite String.compare_antisym, H. reflexivity. Qed.

Definition below (k : string) (cs : list (string * natmap)) : Prop := forall p, In p cs -> String.compare k (fst p) = Lt.
Fixpoint ordered (cs : list (string * natmap)) : Prop :=
  match cs with [] => True | p :: cs' => below (fst p) cs' /\ ordered cs' end.
Lemma put_in : forall k v cs p, In p (put k v cs) -> p = (k, v) \/ In p cs.
Proof.
  induction cs as [|(k', v') cs IH]; intros p H; cbn in H.
  - destruct H as [H|[]]; auto.
  - destruct (String.compare k k'); cbn in H.
    + destruct H as [H|H]; [auto|right; right; exact H].
    + destruct H as [H|H]; auto.
    + destruct H as [H|H]; [right; left; exact H|]. destruct (IH _ H) as [E|E]; [auto|right; right; exact E].
Qed.
Lemma put_ordered : forall k v cs, ordered cs -> ordered (put k v cs).
Proof.
  induction cs as [|(k', v') cs IH]; intros H; cbn.
  - split; [intros p []|exact I].
  - destruct H as [B O]. destruct (String.compare k k') eqn:E; cbn.
    + apply compare_eq in E. subst. split; [exact B|exact O].
    + split; [|split; [exact B|exact O]]. intros p [Hp|Hp]; [subst p; exact E|].
      cbn [fst]. eapply compare_lt_trans; [exact E|exact (B p Hp)].
    + split; [|exact (IH O)]. intros p Hp. cbn [fst]. destruct (put_in _ _ _ _ Hp) as [Ep|Hq]; [subst p; cbn [fst]; apply compare_gt; exact E|exact (B p Hq)].
Qed.
Lemma ordered_nodup : forall cs, ordered cs -> NoDup (map fst cs).
Proof.
  induction cs as [|p cs IH]; intros H; cbn; [constructor|]. destruct H as [B O]. constructor; [|exact (IH O)].
  intros H. apply in_map_iff in H. destruct H as (q & E & Hq). pose proof (B q Hq) as L. rewrite E, compare_refl in L. discriminate.
Qed.
Lemma assoc_put : forall k x v cs, assoc k (put x v cs) = if String.eqb k x then Some v else assoc k cs.
Proof.
  induction cs as [|(k', v') cs IH]; cbn.
  - reflexivity.
  - destruct (String.compare x k') eqn:E; cbn.
    + apply compare_eq in E. subst. destruct (String.eqb k k'); reflexivity.
    + reflexivity.
    + rewrite IH. destruct (String.eqb_spec k k') as [E1|E1]; [|reflexivity].
      destruct (String.eqb_spec k x) as [E2|E2]; [|reflexivity]. subst. rewrite compare_refl in E. discriminate.
Qed.
Lemma assoc_in : forall (A : Type) k (cs : list (string * A)) m, assoc k cs = Some m -> In (k, m) cs.
Proof.
  induction cs as [|(k', v') cs IH]; intros m H; cbn in H; [discriminate|].
  destruct (String.eqb_spec k k') as [E|E]; [subst; inversion H; left; reflexivity|right; exact (IH _ H)].
Qed.
Lemma in_assoc : forall (A : Type) k (cs : list (string * A)) m, NoDup (map fst cs) -> In (k, m) cs -> assoc k cs = Some m.
Proof.
  induction cs as [|(k', v') cs IH]; intros m ND H; [destruct H|]. cbn in ND. apply NoDup_cons_iff in ND. destruct ND as [N1 N2]. cbn.
  destruct H as [H|H].
  - inversion H; subst. rewrite String.eqb_refl. reflexivity.
  - destruct (String.eqb_spec k k') as [E|E]; [|exact (IH _ N2 H)]. subst. destruct N1. apply in_map_iff. exists (k', m). auto.
Qed.
Lemma assoc_map : forall (A B : Type) (g : A -> B) k (cs : list (string * A)),
  assoc k (map (fun p => (fst p, g (snd p))) cs) = option_map g (assoc k cs).
Proof. induction cs as [|(k', v') cs IH]; cbn; [reflexivity|]. destruct (String.eqb k k'); auto. Qed.

(** ** Values *)
Lemma count_up : forall n val, count_to n val (val + Z.of_nat n)%Z 1 = map (fun i => (val + Z.of_nat i)%Z) (seq 0 n).
Proof.
  induction n as [|n IH]; intros val; [reflexivity|]. cbn [count_to seq map].
  replace (Z.eqb val (val + Z.of_nat (S n))) with false by (symmetry; apply Z.eqb_neq; lia).
  f_equal; [lia|]. replace (val + Z.of_nat (S n))%Z with ((val + 1) + Z.of_nat n)%Z by lia. rewrite IH, <- seq_shift, map_map.
  apply map_ext. intros i. lia.
Qed.
Lemma count_down : forall n val, count_to n val (val - Z.of_nat n)%Z (-1) = map (fun i => (val - Z.of_nat i)%Z) (seq 0 n).
Proof.
  induction n as [|n IH]; intros val; [reflexivity|]. cbn [count_to seq map].
  replace (Z.eqb val (val - Z.of_nat (S n))) with false by (symmetry; apply Z.eqb_neq; lia).
  f_equal; [lia|]. replace (val - Z.of_nat (S n))%Z with ((val + -1) - Z.of_nat n)%Z by lia. rewrite IH, <- seq_shift, map_map.
  apply map_ext. intros i. lia.
Qed.
Lemma range_eq : forall b e, range_membs b e =
  map (fun i => if Z.ltb b e then b + Z.of_nat i else b - Z.of_nat i)%Z (seq 0 (S (Z.abs_nat (e - b)))).
Proof.
  intros b e. unfold range_membs. destruct (Z.ltb_spec b e) as [H|H].
  - replace (e + 1)%Z with (b + Z.of_nat (S (Z.abs_nat (e - b))))%Z by lia. apply count_up.
  - replace (e + -1)%Z with (b - Z.of_nat (S (Z.abs_nat (e - b))))%Z by lia. apply count_down.
Qed.
Lemma parse_numbers : forall v m, parse_natmap v = Some m ->
  stands_for v m /\ nm_shown m = nm_membs m /\ (nm_scalar m = true -> nm_membs m <> []).
Proof.
  intros [pa [b e|l]] m H; unfold parse_natmap in H; cbn [vt_nums vt_paren] in H.
  - inversion H; subst m; clear H. unfold stands_for, numbers. cbn [vt_nums vt_paren nm_membs nm_shown nm_scalar].
    rewrite range_eq. split; [split; [|reflexivity]|split; [reflexivity|]].
    + rewrite map_length, seq_length. split; [reflexivity|]. intros i Hi.
      rewrite nth_indep with (d' := (if Z.ltb b e then b + Z.of_nat 0 else b - Z.of_nat 0)%Z) by (rewrite map_length, seq_length; exact Hi).
      rewrite (map_nth (fun i => if Z.ltb b e then b + Z.of_nat i else b - Z.of_nat i)%Z (seq 0 (S (Z.abs_nat (e - b)))) 0 i), seq_nth by exact Hi. reflexivity.
    + intros _. rewrite seq_S. cbn. intros E. apply map_eq_nil in E. destruct (seq 0 (Z.abs_nat (e - b))); discriminate.
  - destruct l as [|x l]; cbn in H.
    + destruct pa; cbn in H; inversion H; subst m. unfold stands_for, numbers. cbn. repeat split; auto; intros; discriminate.
    + inversion H; subst m. unfold stands_for, numbers. cbn. repeat split; auto; intros; discriminate.
Qed.
Lemma parse_good : forall v, parse_natmap v <> None <-> good_text v.
Proof.
  intros [pa [b e|l]]; unfold parse_natmap, good_text; cbn [vt_nums vt_paren].
  - split; intros _; [left; discriminate|discriminate].
  - destruct l as [|x l]; cbn.
    + destruct pa; cbn; split; intros H; auto; try discriminate; destruct H as [H|H]; congruence.
    + split; intros _; [left; discriminate|discriminate].
Qed.

(** ** Combinations *)
Lemma with_consts_same : forall d cs o, with_consts (po_consts d) o = d -> with_consts (po_consts d) (with_consts cs o) = d.
Proof. intros d cs [] H. exact H. Qed.
Lemma with_consts_consts : forall cs o, po_consts (with_consts cs o) = cs.
Proof. intros cs []. reflexivity. Qed.
Lemma with_consts_self : forall o, with_consts (po_consts o) o = o.
Proof. intros []. reflexivity. Qed.

Section Combine.
Variable d : popt.
Hypothesis KEYS : NoDup (map fst (po_consts d)).
Hypothesis FULL : forall k m, assoc k (po_consts d) = Some m -> nm_scalar m = true -> nm_membs m <> [].

(** Choices among the entries [ps]; the others have their first number *)
Definition partly (ps : list (string * natmap)) (f : string -> Z) : Prop :=
  forall k m, assoc k (po_consts d) = Some m -> nm_scalar m = true ->
    In (f k) (nm_membs m) /\ (~ In k (map fst ps) -> f k = hd 0%Z (nm_membs m)).
Definition apart (a b : popt) : Prop := forall f, instance_of d f a -> instance_of d f b -> False.
Definition change (f : string -> Z) (k : string) (x : Z) : string -> Z := fun k' => if String.eqb k' k then x else f k'.

Record stage (ps : list (string * natmap)) (l : list popt) : Prop := mkStage {
  stage_sound : forall o, In o l -> exists f, partly ps f /\ instance_of d f o;
  stage_all : forall f, partly ps f -> exists o, In o l /\ instance_of d f o;
  stage_apart : no_repeats d -> ForallOrdPairs apart l }.

Lemma first_stage : stage [] [first_instance d].
Proof.
  assert (P : forall f, partly [] f -> instance_of d f (first_instance d)).
  { intros f Hf. unfold first_instance. split.
    - apply with_consts_same. apply with_consts_self.
    - intros k. rewrite with_consts_consts, (assoc_map _ _ cut). specialize (Hf k).
      destruct (assoc k (po_consts d)) as [m|] eqn:E; cbn [option_map]; [|reflexivity].
      unfold cut. destruct (nm_scalar m) eqn:Es; [|reflexivity].
      destruct (Hf m eq_refl Es) as [_ H2]. eexists. split; [reflexivity|]. cbn [nm_membs].
      rewrite H2 by (intros []). pose proof (FULL k m E Es) as N. destruct (nm_membs m) as [|x l]; [congruence|]. reflexivity. }
  split.
  - intros o [<-|[]].
    exists (fun k => match assoc k (po_consts d) with Some m => hd 0%Z (nm_membs m) | None => 0%Z end).
    assert (Q : partly [] (fun k => match assoc k (po_consts d) with Some m => hd 0%Z (nm_membs m) | None => 0%Z end)).
    { intros k m E Es. cbv beta. rewrite E. split; [|reflexivity]. pose proof (FULL k m E Es) as N. destruct (nm_membs m); [congruence|left; reflexivity]. }
    split; [exact Q|exact (P _ Q)].
  - intros f Hf. exists (first_instance d). split; [left; reflexivity|exact (P f Hf)].
  - intros _. constructor; constructor.
Qed.

Definition set1 (k : string) (x : Z) (o : popt) : popt := with_consts (put k (natmap_set x) (po_consts o)) o.
Lemma set1_instance : forall f k x o m, assoc k (po_consts d) = Some m -> nm_scalar m = true ->
  instance_of d f o -> instance_of d (change f k x) (set1 k x o).
Proof.
  intros f k x o m E Es [H1 H2]. split.
  - apply with_consts_same. exact H1.
  - intros k'. unfold set1. rewrite with_consts_consts, assoc_put. specialize (H2 k').
    unfold change. destruct (String.eqb_spec k' k) as [Ek|Ek].
    + subst k'. rewrite E, Es. exists (natmap_set x). split; reflexivity.
    + exact H2.
Qed.
Lemma set1_back : forall f g k x o m, assoc k (po_consts d) = Some m -> nm_scalar m = true ->
  instance_of d g o -> instance_of d f (set1 k x o) -> f k = x /\ instance_of d (change f k (g k)) o.
Proof.
  intros f g k x o m E Es [G1 G2] [H1 H2]. unfold set1 in H2. split.
  - specialize (H2 k). rewrite E, Es, with_consts_consts, assoc_put, String.eqb_refl in H2.
    destruct H2 as (m' & Em & M). inversion Em; subst m'. cbn in M. congruence.
  - split; [exact G1|]. intros k'. specialize (H2 k'). specialize (G2 k'). rewrite with_consts_consts, assoc_put in H2.
    unfold change. destruct (String.eqb_spec k' k) as [Ek|Ek]; [|exact H2]. subst k'. exact G2.
Qed.
Lemma instance_value : forall f g o k m, assoc k (po_consts d) = Some m -> nm_scalar m = true ->
  instance_of d f o -> instance_of d g o -> f k = g k.
Proof.
  intros f g o k m E Es [_ H] [_ G]. specialize (H k). specialize (G k). rewrite E, Es in H, G.
  destruct H as (m1 & A1 & B1). destruct G as (m2 & A2 & B2). rewrite A1 in A2. inversion A2; subst. rewrite B1 in B2. congruence.
Qed.

Lemma fop_app : forall (A : Type) (R : A -> A -> Prop) l1 l2, ForallOrdPairs R l1 -> ForallOrdPairs R l2 ->
  (forall a b, In a l1 -> In b l2 -> R a b) -> ForallOrdPairs R (l1 ++ l2).
Proof.
  induction l1 as [|a l1 IH]; intros l2 H1 H2 C; [exact H2|]. inversion H1 as [|? ? F1 F2]; subst. cbn. constructor.
  - rewrite Forall_app. split; [exact F1|]. apply Forall_forall. intros b Hb. apply C; [left; reflexivity|exact Hb].
  - apply IH; auto. intros x b Hx Hb. apply C; [right; exact Hx|exact Hb].
Qed.
Lemma fop_map : forall (A B : Type) (R : A -> A -> Prop) (Q : B -> B -> Prop) (g : A -> B) l, ForallOrdPairs R l ->
  (forall a b, In a l -> In b l -> R a b -> Q (g a) (g b)) -> ForallOrdPairs Q (map g l).
Proof.
  intros A B R Q g l H. induction H as [|a l F H IH]; intros C; cbn; constructor.
  - apply Forall_forall. intros y Hy. apply in_map_iff in Hy. destruct Hy as (b & <- & Hb).
    apply C; [left; reflexivity|right; exact Hb|]. exact (proj1 (Forall_forall _ _) F b Hb).
  - apply IH. intros x b Hx Hb. apply C; right; assumption.
Qed.

Lemma push_stage : forall ps p l, stage ps l -> In p (po_consts d) -> ~ In (fst p) (map fst ps) ->
  stage (ps ++ [p]) (push_values l p).
Proof.
  intros ps (k, m) l [SO SA SP] Hp Hn. cbn [fst] in Hn.
  pose proof (in_assoc _ _ _ _ KEYS Hp) as E.
  assert (W : forall f, partly ps f -> partly (ps ++ [(k, m)]) f).
  { intros f Hf k' m' E' Es'. destruct (Hf k' m' E' Es') as [A B]. split; [exact A|]. intros N. apply B. intros I. apply N.
    rewrite map_app. apply in_or_app. left. exact I. }
  unfold push_values. cbn [fst snd]. destruct (nm_scalar m) eqn:Es.
  2:{ split; [|intros f Hf; apply SA|exact SP].
      - intros o Ho. destruct (SO o Ho) as (f & A & B). exists f. split; [exact (W f A)|exact B].
      - intros k' m' E' Es'. destruct (Hf k' m' E' Es') as [A B]. split; [exact A|]. intros N. apply B. rewrite map_app. intros I.
        apply in_app_or in I. destruct I as [I|[I|[]]]; [exact (N I)|]. cbn in I. subst k'. rewrite E in E'. inversion E'; subst. congruence. }
  pose proof (FULL k m E Es) as NE. destruct (nm_membs m) as [|x0 xs] eqn:EM; [congruence|]. cbn [tl].
  assert (K0 : forall f, partly ps f -> f k = x0).
  { intros f Hf. destruct (Hf k m E Es) as [_ B]. rewrite EM in B. exact (B Hn). }
  assert (SK : forall o f, In o l -> instance_of d f o -> f k = x0).
  { intros o f Ho Hf. destruct (SO o Ho) as (g & A & B). rewrite (instance_value f g o k m E Es Hf B). exact (K0 g A). }
  split.
  - intros o Ho. apply in_app_or in Ho. destruct Ho as [Ho|Ho].
    + destruct (SO o Ho) as (f & A & B). exists f. split; [exact (W f A)|exact B].
    + apply in_flat_map in Ho. destruct Ho as (x & Hx & Ho). unfold set_in_all in Ho. apply in_map_iff in Ho. destruct Ho as (o' & <- & Ho').
      destruct (SO o' Ho') as (f & A & B). exists (change f k x). split; [|exact (set1_instance f k x o' m E Es B)].
      intros k' m' E' Es'. unfold change. destruct (String.eqb_spec k' k) as [Ek|Ek].
      * subst k'. rewrite E in E'. inversion E'; subst m'. split; [rewrite EM; right; exact Hx|]. intros N. destruct N. rewrite map_app. apply in_or_app. right. left. reflexivity.
      * exact (W f A k' m' E' Es').
  - intros f Hf. destruct (Hf k m E Es) as [FI _]. rewrite EM in FI.
    assert (Q : partly ps (change f k x0)).
    { intros k' m' E' Es'. unfold change. destruct (String.eqb_spec k' k) as [Ek|Ek].
      - subst k'. rewrite E in E'. inversion E'; subst m'. rewrite EM. split; [left; reflexivity|reflexivity].
      - destruct (Hf k' m' E' Es') as [A B]. split; [exact A|]. intros N. apply B. rewrite map_app. intros I.
        apply in_app_or in I. destruct I as [I|[I|[]]]; [exact (N I)|]. cbn in I. congruence. }
    destruct (SA _ Q) as (o & Ho & Io). destruct FI as [FI|FI].
    + exists o. split; [apply in_or_app; left; exact Ho|]. destruct Io as [I1 I2]. split; [exact I1|]. intros k'. specialize (I2 k').
      unfold change in I2. destruct (String.eqb_spec k' k) as [Ek|Ek]; [|exact I2]. subst k'. rewrite <- FI. exact I2.
    + exists (set1 k (f k) o). split.
      * apply in_or_app. right. apply in_flat_map. exists (f k). split; [exact FI|]. unfold set_in_all. apply in_map_iff. exists o. split; [reflexivity|exact Ho].
      * pose proof (set1_instance _ k (f k) o m E Es Io) as [I1 I2]. split; [exact I1|]. intros k'. specialize (I2 k'). unfold change in I2.
        destruct (String.eqb_spec k' k) as [Ek|Ek]; [|exact I2]. subst k'. exact I2.
  - intros NR. specialize (SP NR). pose proof (NR k m E Es) as ND. rewrite EM in ND. apply NoDup_cons_iff in ND. destruct ND as [N1 N2].
    assert (BK : forall x o f, In o l -> instance_of d f (set1 k x o) -> f k = x).
    { intros x o f Ho Hf. destruct (SO o Ho) as (g & _ & B). exact (proj1 (set1_back f g k x o m E Es B Hf)). }
    apply fop_app; [exact SP| |].
    + clear N1 Hp EM NE FULL W. induction xs as [|x xs IH]; cbn [flat_map]; [constructor|].
      apply NoDup_cons_iff in N2. destruct N2 as [N3 N4]. apply fop_app.
      * unfold set_in_all. apply fop_map with (R := apart); [exact SP|]. intros a b Ha Hb AP f Fa Fb.
        destruct (SO a Ha) as (ga & Pa & Ga). destruct (SO b Hb) as (gb & Pb & Gb).
        apply (AP (change f k x0)).
        -- destruct (set1_back f ga k x a m E Es Ga Fa) as [_ B]. rewrite (K0 ga Pa) in B. exact B.
        -- destruct (set1_back f gb k x b m E Es Gb Fb) as [_ B]. rewrite (K0 gb Pb) in B. exact B.
      * apply IH. exact N4.
      * intros a b Ha Hb f Fa Fb. unfold set_in_all in Ha. apply in_map_iff in Ha. destruct Ha as (a' & <- & Ha').
        apply in_flat_map in Hb. destruct Hb as (y & Hy & Hb). unfold set_in_all in Hb. apply in_map_iff in Hb. destruct Hb as (b' & <- & Hb').
        pose proof (BK x a' f Ha' Fa). pose proof (BK y b' f Hb' Fb). congruence.
    + intros a b Ha Hb f Fa Fb. apply in_flat_map in Hb. destruct Hb as (y & Hy & Hb). unfold set_in_all in Hb. apply in_map_iff in Hb.
      destruct Hb as (b' & <- & Hb'). pose proof (BK y b' f Hb' Fb). pose proof (SK a f Ha Fa). congruence.
Qed.

Lemma fold_stage : forall qs ps l, stage ps l -> po_consts d = ps ++ qs -> stage (po_consts d) (fold_left push_values qs l).
Proof.
  induction qs as [|p qs IH]; intros ps l SS EQ; cbn [fold_left].
  - rewrite app_nil_r in EQ. rewrite EQ. exact SS.
  - apply (IH (ps ++ [p])); [|rewrite EQ, <- app_assoc; reflexivity].
    apply push_stage; [exact SS|rewrite EQ; apply in_or_app; right; left; reflexivity|].
    pose proof KEYS as ND. rewrite EQ, map_app in ND. cbn [map] in ND. apply NoDup_remove_2 in ND. intros I. apply ND. apply in_or_app. left. exact I.
Qed.
Lemma flat_map_len : forall k xs l, List.length (flat_map (fun x => set_in_all k x l) xs) = List.length xs * List.length l.
Proof. induction xs as [|x xs IH]; intros l; cbn; [reflexivity|]. rewrite app_length, IH. unfold set_in_all. rewrite map_length. reflexivity. Qed.
Lemma fold_length : forall qs l, (forall p, In p qs -> nm_scalar (snd p) = true -> nm_membs (snd p) <> []) ->
  List.length (fold_left push_values qs l) =
  List.length l * fold_right (fun p n => (if nm_scalar (snd p) then List.length (nm_membs (snd p)) else 1) * n) 1 qs.
Proof.
  induction qs as [|(k, m) qs IH]; intros l H; cbn [fold_left fold_right]; [lia|].
  rewrite IH by (intros p Hp; apply H; right; exact Hp). unfold push_values. cbn [fst snd].
  pose proof (H (k, m) (or_introl eq_refl)) as N. cbn [snd] in N. destruct (nm_scalar m); [|lia].
  specialize (N eq_refl). rewrite app_length, flat_map_len. destruct (nm_membs m) as [|x xs]; [congruence|]. cbn [tl List.length]. nia.
Qed.
Lemma apart_nth : forall l, ForallOrdPairs apart l -> forall f i j, i < List.length l -> j < List.length l ->
  instance_of d f (nth i l popt0) -> instance_of d f (nth j l popt0) -> i = j.
Proof.
  intros l H. induction H as [|a l F H IH]; intros f i j Hi Hj Ii Ij; [cbn in Hi; lia|].
  cbn in Hi, Hj. destruct i as [|i], j as [|j]; cbn [nth] in Ii, Ij.
  - reflexivity.
  - exfalso. apply (proj1 (Forall_forall _ _) F (nth j l popt0)) with (f := f); auto. apply nth_In. lia.
  - exfalso. apply (proj1 (Forall_forall _ _) F (nth i l popt0)) with (f := f); auto. apply nth_In. lia.
  - f_equal. apply (IH f); auto; lia.
Qed.
Lemma push_all : all_combinations d (fold_left push_values (po_consts d) [first_instance d]).
Proof.
  pose proof (fold_stage (po_consts d) [] _ first_stage eq_refl) as [SO SA SP].
  assert (PC : forall f, combination d f -> partly (po_consts d) f).
  { intros f Hf k m E Es. split; [exact (Hf k m E Es)|]. intros N. destruct N. apply assoc_in in E. apply in_map_iff. exists (k, m). auto. }
  assert (L : List.length (fold_left push_values (po_consts d) [first_instance d]) = how_many d).
  { rewrite fold_length; [cbn [List.length]; unfold how_many; lia|]. intros (k, m) Hp. apply (FULL k m). apply in_assoc; auto. }
  split; [|split; [|split; [|split; [exact L|]]]].
  - intros o Ho. destruct (SO o Ho) as (f & A & B). exists f. split; [|exact B]. intros k m E Es. exact (proj1 (A k m E Es)).
  - intros f Hf. destruct (SA f (PC f Hf)) as (o & Ho & Io). apply (In_nth _ _ popt0) in Ho. destruct Ho as (i & Hi & Ei). exists i. rewrite Ei. auto.
  - intros NR f i j. apply apart_nth. exact (SP NR).
  - destruct first_stage as [_ A _]. 
    assert (Q : exists f, combination d f).
    { exists (fun k => match assoc k (po_consts d) with Some m => hd 0%Z (nm_membs m) | None => 0%Z end). intros k m E Es. rewrite E.
      pose proof (FULL k m E Es) as N. destruct (nm_membs m); [congruence|left; reflexivity]. }
    destruct Q as (f & Hf). destruct (SA f (PC f Hf)) as (o & Ho & _). intros E. rewrite E in Ho. destruct Ho.
Qed.
End Combine.
