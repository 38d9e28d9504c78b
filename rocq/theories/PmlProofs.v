(** Promela: expressions and references mean the same in SPIN. *)
From Coq Require Import NArith.
From Verif Require Import UdpModel UdpSpec.
From Coq Require Import String List Arith Bool ZArith Lia.
From Verif Require Import FinLib ParseModel AccessModel AccessSpec PrintModel FmlaModel FmlaSpec IntModel IntSpec ExprModel ExprSpec ActModel ActSpec NetModel NetSpec UgenSpec PmlModel PmlSpec.
Import ListNotations.
Local Open Scope list_scope.
Local Open Scope nat_scope.

Fixpoint depth (e : sexp) : nat :=
  match e with
  | SInt a => S (depth a)
  | SNeg a => depth a
  | SBin _ a b => Nat.max (depth a) (depth b)
  | _ => 0
  end.
Definition no_mul (r : list tok) : Prop := match r with t :: _ => pmul t 0 1 = None | [] => True end.
Definition no_add (r : list tok) : Prop := match r with t :: _ => padd t 0 1 = None | [] => True end.

Lemma pchain_stop : forall op sub n a r, (match r with t :: _ => op t 0%Z 1%Z = None | [] => True end) -> pchain op sub n a r = Some (a, r).
Proof. intros op sub [|n] a [|t r] H; cbn; auto. rewrite H. reflexivity. Qed.

Section Expr.
Variable env : string -> option Z.
Variable G : scope.
Variable b : imap.
Definition agree (e : sexp) : Prop := forall x, In x (names_in e) -> env x = int_named G b x.

Lemma values_read : forall e n z, depth e < n -> agree e -> value_of G b e [] = Some z ->
  (c_like 0 e -> forall r, patom env (pexpr env n) (print e ++ r) = Some (z, r)) /\
  (c_like 1 e -> forall r, punary env (pexpr env n) (print e ++ r) = Some (z, r)) /\
  (c_like 2 e -> forall r, exists m, length r <= m /\ pproduct env (pexpr env n) (print e ++ r) = pchain pmul (punary env (pexpr env n)) m z r) /\
  (c_like 3 e -> forall r, no_mul r -> exists m, length r <= m /\ psum env (pexpr env n) (print e ++ r) = pchain padd (pproduct env (pexpr env n)) m z r).
Proof.
  intros e. induction e as [x|n0|a IH|a IH|a IH|a IHa b0 IHb|a IHa b0 IHb|a IHa b0 IHb|a IHa b0 IHb|a IHa b0 IHb|c a IHa b0 IHb|q x a IHa body IHb|a IH|op a IHa b0 IHb|c IHc a IHa b0 IHb|x a IH];
    intros n z D AG V; try (repeat split; intros []; fail).
  - (* name *)
    assert (E : env x = Some z) by (rewrite AG by (left; reflexivity); exact V).
    assert (A0 : forall r, patom env (pexpr env n) (print (SName x) ++ r) = Some (z, r)) by (intros r; cbn; rewrite E; reflexivity).
    assert (A2 : forall r, pproduct env (pexpr env n) (print (SName x) ++ r) = pchain pmul (punary env (pexpr env n)) (length r) z r) by (intros r; unfold pproduct; cbn; rewrite E; reflexivity).
    (split; [|split; [|split]]); intros _ r; [apply A0|apply A0|exists (length r); split; [lia|apply A2]|].
    intros NM. exists (length r). split; [lia|]. unfold psum. rewrite A2, pchain_stop by exact NM. reflexivity.
  - (* number *)
    cbn in V. injection V as <-.
    assert (A2 : forall r, pproduct env (pexpr env n) (print (SNat n0) ++ r) = pchain pmul (punary env (pexpr env n)) (length r) (Z.of_nat n0) r) by (intros r; unfold pproduct; cbn; reflexivity).
    (split; [|split; [|split]]); intros _ r; [reflexivity|reflexivity|exists (length r); split; [lia|apply A2]|].
    intros NM. exists (length r). split; [lia|]. unfold psum. rewrite A2, pchain_stop by exact NM. reflexivity.
  - (* parentheses *)
    cbn [depth] in D. change (value_of G b (SInt a) []) with (value_of G b a []) in V. destruct n as [|n]; [lia|].
    assert (A0 : c_like 3 a -> forall r, patom env (pexpr env (S n)) (print (SInt a) ++ r) = Some (z, r)).
    { intros C r. destruct (IH n z ltac:(lia) AG V) as (_ & _ & _ & H). cbn [print app patom]. rewrite <- app_assoc. cbn [app].
      change (pexpr env (S n) (print a ++ TRp :: r)) with (psum env (pexpr env n) (print a ++ TRp :: r)).
      destruct (H C (TRp :: r) eq_refl) as (m & _ & ->). rewrite pchain_stop by reflexivity. reflexivity. }
    assert (A2 : c_like 3 a -> forall r, pproduct env (pexpr env (S n)) (print (SInt a) ++ r) = pchain pmul (punary env (pexpr env (S n))) (length r) z r).
    { intros C r. unfold pproduct. change (punary env (pexpr env (S n)) (print (SInt a) ++ r)) with (patom env (pexpr env (S n)) (print (SInt a) ++ r)). rewrite (A0 C r). reflexivity. }
    (split; [|split; [|split]]); intros C r; [apply A0; exact C|apply (A0 C r)|exists (length r); split; [lia|apply A2; exact C]|].
    intros NM. exists (length r). split; [lia|]. unfold psum. rewrite (A2 C), pchain_stop by exact NM. reflexivity.
  - (* minus *)
    cbn [depth] in D. change (value_of G b (SNeg a) []) with (option_map Z.opp (value_of G b a [])) in V.
    destruct (value_of G b a []) as [za|] eqn:Va; [|discriminate]. cbn in V. injection V as <-.
    destruct (IH n za D AG eq_refl) as (H0 & _).
    assert (A1 : c_like 0 a -> forall r, punary env (pexpr env n) (print (SNeg a) ++ r) = Some ((- za)%Z, r)).
    { intros C r. cbn [print app punary]. rewrite (H0 C). reflexivity. }
    assert (A2 : c_like 0 a -> forall r, pproduct env (pexpr env n) (print (SNeg a) ++ r) = pchain pmul (punary env (pexpr env n)) (length r) (- za)%Z r).
    { intros C r. unfold pproduct. rewrite (A1 C r). reflexivity. }
    (split; [|split; [|split]]); cbn [c_like]; intros (L & C) r; [lia|apply A1; exact C|exists (length r); split; [lia|apply A2; exact C]|].
    intros NM. exists (length r). split; [lia|]. unfold psum. rewrite (A2 C), pchain_stop by exact NM. reflexivity.
  - (* operators *)
    cbn [depth] in D. 
    assert (VV : exists za zb, value_of G b a [] = Some za /\ value_of G b b0 [] = Some zb /\ op_means op za zb = Some z).
    { change (value_of G b (SBin op a b0) []) with (match value_of G b a [], value_of G b b0 [] with Some x, Some y => op_means op x y | _, _ => None end) in V.
      destruct (value_of G b a []) as [za|]; [|discriminate]. destruct (value_of G b b0 []) as [zb|]; [|discriminate]. eauto. }
    clear V. destruct VV as (za & zb & Va & Vb & OP).
    assert (AGa : agree a) by (intros x X; apply AG; cbn [names_in]; apply in_or_app; auto).
    assert (AGb : agree b0) by (intros x X; apply AG; cbn [names_in]; apply in_or_app; auto).
    destruct (IHa n za ltac:(lia) AGa Va) as (_ & _ & HA2 & HA3). destruct (IHb n zb ltac:(lia) AGb Vb) as (_ & HB1 & HB2 & _).
    assert (SUM : forall t, (op = AddOp /\ t = TPlus \/ op = SubOp /\ t = TMinus) -> c_like 3 a -> c_like 2 b0 -> forall r, no_mul r ->
      exists m, length r <= m /\ psum env (pexpr env n) (print a ++ (t :: print b0) ++ r) = pchain padd (pproduct env (pexpr env n)) m z r).
    { intros t OT Ca Cb r NM. destruct (HA3 Ca (t :: print b0 ++ r)) as (m & LM & E); [destruct OT as [(_ & ->)|(_ & ->)]; reflexivity|].
      cbn [app] in *. rewrite E. cbn [length] in LM. rewrite app_length in LM. destruct m as [|m]; [lia|]. exists m. split; [lia|]. cbn [pchain].
      assert (X : padd t 0 1 <> None) by (destruct OT as [(_ & ->)|(_ & ->)]; discriminate). destruct (padd t 0 1) as [y|] eqn:Y; [|congruence]. clear X Y.
      destruct (HB2 Cb r) as (m' & _ & EB). rewrite EB. rewrite pchain_stop by exact NM.
      destruct OT as [(OO & ->)|(OO & ->)]; rewrite OO in OP; cbn in OP; injection OP as OP; cbn [padd]; rewrite OP; reflexivity. }
    assert (PROD : forall t, (op = MulOp /\ t = TMul \/ op = DivOp /\ t = TDiv) -> c_like 2 a -> c_like 1 b0 -> forall r,
      exists m, length r <= m /\ pproduct env (pexpr env n) (print a ++ (t :: print b0) ++ r) = pchain pmul (punary env (pexpr env n)) m z r).
    { intros t OT Ca Cb r. destruct (HA2 Ca (t :: print b0 ++ r)) as (m & LM & E).
      cbn [app] in *. rewrite E. cbn [length] in LM. rewrite app_length in LM. destruct m as [|m]; [lia|]. exists m. split; [lia|]. cbn [pchain].
      assert (X : pmul t 0 1 <> None) by (destruct OT as [(_ & ->)|(_ & ->)]; discriminate). destruct (pmul t 0 1) as [y|] eqn:Y; [|congruence]. clear X Y.
      rewrite (HB1 Cb r). destruct OT as [(OO & ->)|(OO & ->)]; rewrite OO in OP; cbn in OP.
      - injection OP as OP. cbn [pmul]. rewrite OP. reflexivity.
      - cbn [pmul]. destruct (Z.eq_dec zb 0) as [|NZ]; [discriminate|]. injection OP as OP. apply Z.eqb_neq in NZ. rewrite NZ, OP. reflexivity. }
    assert (UP : forall t, (op = MulOp /\ t = TMul \/ op = DivOp /\ t = TDiv) -> c_like 2 a -> c_like 1 b0 -> forall r, no_mul r ->
      exists m, length r <= m /\ psum env (pexpr env n) (print a ++ (t :: print b0) ++ r) = pchain padd (pproduct env (pexpr env n)) m z r).
    { intros t OT Ca Cb r NM. destruct (PROD t OT Ca Cb r) as (m & _ & E). exists (length r). split; [lia|]. unfold psum. rewrite E, pchain_stop by exact NM. reflexivity. }
    destruct op; cbn [c_like print bin_tok]; try (repeat split; intros []; fail); (split; [|split; [|split]]); intros (L & Ca & Cb) r; try lia; try rewrite <- app_assoc; auto.
Qed.

(** The value of a text *)
Lemma pexpr_more : forall e n z r, c_like 3 e -> depth e < n -> agree e -> value_of G b e [] = Some z -> no_mul r -> no_add r ->
  pexpr env (S n) (print e ++ r) = Some (z, r).
Proof.
  intros e n z r C D AG V NM NA. destruct (values_read e n z D AG V) as (_ & _ & _ & H). destruct (H C r NM) as (m & _ & E).
  cbn [pexpr]. rewrite E, pchain_stop by exact NA. reflexivity.
Qed.
End Expr.

Lemma depth_length : forall l e, c_like l e -> depth e < length (print e).
Proof.
  intros l e. revert l. induction e as [x|n0|a IH|a IH|a IH|a IHa b0 IHb|a IHa b0 IHb|a IHa b0 IHb|a IHa b0 IHb|a IHa b0 IHb|c a IHa b0 IHb|q x a IHa body IHb|a IH|op a IHa b0 IHb|c IHc a IHa b0 IHb|x a IH];
    intros l C; cbn [c_like] in C; try contradiction; cbn [depth print length]; try lia.
  - rewrite app_length. cbn [length]. specialize (IH _ C). lia.
  - destruct C as (_ & C). specialize (IH _ C). lia.
  - destruct op; try contradiction; destruct C as (_ & Ca & Cb); specialize (IHa _ Ca); specialize (IHb _ Cb); rewrite app_length; cbn [length]; lia.
Qed.
Lemma pvalue_read : forall env G b e z, c_like 3 e -> agree env G b e -> value_of G b e [] = Some z -> pvalue env (print e) = Some z.
Proof.
  intros env G b e z C AG V. unfold pvalue. pose proof (pexpr_more env G b e (length (print e)) z [] C (depth_length 3 e C) AG V Logic.I Logic.I) as H.
  rewrite app_nil_r in H. rewrite H. reflexivity.
Qed.

(** ** Sums and remainders that are added to indices *)
Section Index.
Variable size : nat.
Hypothesis POS : 0 < size.
Lemma grow_spec : forall n m a, (0 <= m + Z.of_nat a + Z.of_nat n)%Z -> exists q, grow n size m a = a + q * size /\ (0 <= m + Z.of_nat (grow n size m a))%Z.
Proof.
  induction n as [|n IH]; intros m a H; cbn [grow].
  - exists 0. split; lia.
  - destruct (Z.ltb_spec (m + Z.of_nat a) 0).
    + destruct (IH m (a + size)) as (q & E & P); [lia|]. exists (S q). rewrite E in *. split; lia.
    + exists 0. split; lia.
Qed.
(** What has been found out about the indices seen so far. *)
Definition covers (am : nat * nat) (l : list Z) : Prop :=
  (exists q, fst am = q * size) /\ (snd am = 0 \/ snd am = size) /\ (snd am = 0 -> fst am = 0) /\
  forall m, In m l -> (0 <= m + Z.of_nat (fst am))%Z /\ (snd am = 0 -> (0 <= m < Z.of_nat size)%Z).
Lemma add_mod_spec : forall l, covers (add_mod size l) l.
Proof.
  intros l. unfold add_mod.
  assert (H : forall l am seen, covers am seen -> covers (fold_left (fun am m =>
    let '(add_val, mod_val) := am in
    let '(add_val, mod_val) := if (m <? 0)%Z then (grow (Z.to_nat (- m)) size m add_val, size) else (add_val, mod_val) in
    if (Z.of_nat size <=? m)%Z then (add_val, size) else (add_val, mod_val)) l am) (seen ++ l)).
  { induction l0 as [|m l0 IH]; intros am seen C; cbn [fold_left]; [rewrite app_nil_r; exact C|].
    replace (seen ++ m :: l0) with ((seen ++ [m]) ++ l0) by (rewrite <- app_assoc; reflexivity). apply IH. clear IH.
    destruct am as (a, d). destruct C as ((q & Q) & D & Z0 & C). cbn [fst snd] in *.
    destruct (Z.ltb_spec m 0) as [NEG|NN].
    - destruct (grow_spec (Z.to_nat (- m)) m a) as (q' & E & P); [lia|]. set (a' := grow (Z.to_nat (- m)) size m a) in *.
      destruct (Z.leb_spec (Z.of_nat size) m); [lia|]. split; [exists (q + q'); cbn; lia|]. split; [auto|]. split; [cbn; lia|].
      intros x I. cbn [fst snd]. apply in_app_iff in I. destruct I as [I|[<-|[]]]; [|lia]. destruct (C x I) as (X1 & X2). split; [lia|]. lia.
    - destruct (Z.leb_spec (Z.of_nat size) m) as [BIG|SM].
      + split; [exists q; auto|]. split; [auto|]. split; [cbn; lia|]. intros x I. cbn [fst snd]. apply in_app_iff in I. destruct I as [I|[<-|[]]]; [|lia]. destruct (C x I) as (X1 & X2). split; lia.
      + split; [exists q; auto|]. split; [auto|]. split; [auto|]. intros x I. cbn [fst snd]. apply in_app_iff in I. destruct I as [I|[<-|[]]]; [|lia]. apply C; auto. }
  apply (H l (0, 0) []). split; [exists 0; reflexivity|]. split; [auto|]. split; [auto|]. intros m [].
Qed.

Lemma ref_read : forall env G b arrays x e l membs z, c_like 3 e -> agree (lookup env) G b e -> value_of G b e [] = Some z ->
  In z membs -> assoc x arrays = Some l -> length l = size ->
  cell_of arrays env (OPutPromelaVblRef x size membs (print e)) = nth_error l (Z.to_nat (z mod Z.of_nat size)).
Proof.
  intros env G b arrays x e l membs z C AG V I AR LEN. unfold OPutPromelaVblRef. pose proof (add_mod_spec membs) as CV. destruct (add_mod size membs) as (a, d).
  destruct CV as ((q & Q) & D & Z0 & CV). cbn [fst snd] in *. destruct (CV z I) as (P1 & P2). clear CV I. pose proof (depth_length 3 e C) as DL.
  destruct D as [->| ->].
  - cbn [Nat.ltb Nat.leb app]. specialize (P2 eq_refl). cbn [cell_of].
    assert (E : pexpr (lookup env) (S (length (print e ++ [TRb]))) (print e ++ [TRb]) = Some (z, [TRb])).
    { apply (pexpr_more _ G b); auto; try reflexivity. rewrite app_length. lia. }
    rewrite E, AR, LEN. destruct (Z.leb_spec 0 z); [|lia]. destruct (Z.ltb_spec z (Z.of_nat size)); [|lia]. cbn [andb]. rewrite Z.mod_small by lia. reflexivity.
  - assert (L1 : (0 <? size) = true) by (apply Nat.ltb_lt; lia). rewrite L1. cbn [app].
    set (e' := if 0 <? a then SBin AddOp e (SNat a) else e).
    assert (PR : print e' = print e ++ (if 0 <? a then [TPlus; TNat a] else [])) by (unfold e'; destruct (0 <? a); [reflexivity|rewrite app_nil_r; reflexivity]).
    assert (C' : c_like 3 e') by (unfold e'; destruct (0 <? a); [cbn; auto|exact C]).
    assert (AG' : agree (lookup env) G b e') by (unfold e'; destruct (0 <? a); [intros y Y; cbn [names_in] in Y; rewrite app_nil_r in Y; auto|exact AG]).
    assert (V' : value_of G b e' [] = Some (z + Z.of_nat a)%Z).
    { unfold e'. destruct (Nat.ltb_spec 0 a).
      - change (value_of G b (SBin AddOp e (SNat a)) []) with (match value_of G b e [], value_of G b (SNat a) [] with Some x, Some y => op_means AddOp x y | _, _ => None end). rewrite V. reflexivity.
      - rewrite V. f_equal. lia. }
    set (mid := (if 0 <? a then [TPlus; TNat a] else [])) in *.
    replace (print e ++ (mid ++ [TRp; TMod; TNat size]) ++ [TRb]) with (print e' ++ [TRp; TMod; TNat size; TRb]) by (rewrite PR, <- !app_assoc; reflexivity).
    clearbody e'. clear PR mid.
    cbn [cell_of]. pose proof (depth_length 3 e' C') as DL'.
    assert (E : forall n, depth e' < n -> pexpr (lookup env) (S (S n)) (TLp :: print e' ++ [TRp; TMod; TNat size; TRb]) = Some (Z.rem (z + Z.of_nat a) (Z.of_nat size), [TRb])).
    { intros n DN. change (pexpr (lookup env) (S (S n)) (TLp :: print e' ++ [TRp; TMod; TNat size; TRb])) with
        (psum (lookup env) (pexpr (lookup env) (S n)) (TLp :: print e' ++ [TRp; TMod; TNat size; TRb])).
      assert (AT : patom (lookup env) (pexpr (lookup env) (S n)) (TLp :: print e' ++ [TRp; TMod; TNat size; TRb]) = Some ((z + Z.of_nat a)%Z, [TMod; TNat size; TRb])).
      { cbn [patom]. rewrite (pexpr_more (lookup env) G b e' n (z + Z.of_nat a)%Z [TRp; TMod; TNat size; TRb]); auto; reflexivity. }
      unfold psum, pproduct. change (punary (lookup env) (pexpr (lookup env) (S n)) (TLp :: print e' ++ [TRp; TMod; TNat size; TRb])) with (patom (lookup env) (pexpr (lookup env) (S n)) (TLp :: print e' ++ [TRp; TMod; TNat size; TRb])).
      rewrite AT. cbn [length pchain pmul Z.eqb punary patom].
      destruct (Z.eqb_spec (Z.of_nat size) 0); [lia|]. cbn [pchain pmul padd]. reflexivity. }
    rewrite <- LEN in *.
    match goal with |- context [pexpr (lookup env) ?n ?t] => replace (pexpr (lookup env) n t) with (Some (Z.rem (z + Z.of_nat a) (Z.of_nat (length l)), [TRb])) end.
    2: { symmetry. cbn [length]. rewrite app_length. apply E. cbn [length]. lia. }
    rewrite AR.
    assert (EQ : Z.rem (z + Z.of_nat a) (Z.of_nat (length l)) = (z mod Z.of_nat (length l))%Z).
    { rewrite Z.rem_mod_nonneg by lia. rewrite Q, Nat2Z.inj_mul. apply Z_mod_plus_full. }
    rewrite EQ. pose proof (Z.mod_pos_bound z (Z.of_nat (length l)) ltac:(lia)) as B.
    destruct (Z.leb_spec 0 (z mod Z.of_nat (length l))); [|lia]. destruct (Z.ltb_spec (z mod Z.of_nat (length l)) (Z.of_nat (length l))); [|lia]. reflexivity.
Qed.
End Index.

(** ** Names *)
Lemma defines_read : forall G b known l env, in_order known l ->
  (forall x, In x known -> lookup env x = int_named G b x /\ int_named G b x <> None) ->
  Forall (fun d => exists z, value_of G b (snd d) [] = Some z /\ int_named G b (fst d) = Some z) l ->
  forall x, In x (map fst l ++ known) -> lookup (defines (texts l) env) x = int_named G b x /\ int_named G b x <> None.
Proof.
  intros G b known l. revert known. induction l as [|(x, e) l IH]; intros known env IO K F y Y; [apply K; exact Y|].
  cbn [in_order] in IO. destruct IO as (C & INC & IO). inversion F as [|? ? (z & V & N) F']; subst. cbn [fst snd] in *.
  cbn [texts map fst snd]. unfold defines. cbn [fold_left]. fold (texts l). 
  assert (D : define env (x, print e) = (x, z) :: env).
  { unfold define. cbn [fst snd]. rewrite (pvalue_read (lookup env) G b e z C); auto. intros w W. apply K. apply INC. exact W. }
  rewrite D. fold (defines (texts l) ((x, z) :: env)). apply (IH (x :: known)); auto.
  - intros w W. unfold lookup. cbn [assoc]. destruct (String.eqb_spec w x) as [->|NE]; [rewrite N; split; [reflexivity|discriminate]|].
    apply K. destruct W as [<-|W]; [congruence|exact W].
  - cbn [map fst app] in Y. apply in_or_app. destruct Y as [<-|Y]; [right; left; reflexivity|]. apply in_app_iff in Y. destruct Y as [Y|Y]; [left; auto|right; right; auto].
Qed.

(** The names of the protocol mean in SPIN what they mean in the protocol. *)
Section Member.
Variables (arrays : list (string * list nat)) (cs ls : list (string * sexp)) (kt : kind_text) (im : option (string * sexp)).
Variables (G : scope) (j : nat) (ix : Z) (K : pcsymm) (p : process).
Hypothesis CS : in_order [] cs.
Hypothesis KA : kind_alike cs ls kt im K.
Hypothesis MT : member_text arrays cs ls kt im G j ix K p.
Variable M : pmodel.
Hypothesis MC : m_consts M = texts cs.
Variable t : proctype.
Hypothesis TI : t_idx t = k_idx kt.
Hypothesis TM : t_idxmap t = k_idxmap kt.
Hypothesis TL : t_lets t = k_lets kt.

Notation G0 := (mkScope [] [] (g_consts G) [] []).
Lemma consts_read : forall x, In x (map fst cs) -> lookup (defines (texts cs) []) x = int_named G0 [] x /\ int_named G0 [] x <> None.
Proof.
  intros x X. apply (defines_read G0 [] [] cs [] CS); [intros y []| |rewrite app_nil_r; exact X].
  apply Forall_forall. intros d D. pose proof (mt_consts _ _ _ _ _ _ _ _ _ _ MT) as F. rewrite Forall_forall in F. destruct (F d D) as (z & l & V & A). exists z. split; auto.
  unfold int_named. cbn [assoc s_lets g_consts]. rewrite A. reflexivity.
Qed.
Lemma env_read : exists env, process_env M t (t_offset t + j) = Some env /\
  forall x, In x (map fst ls ++ k_idx kt :: map fst cs) -> lookup env x = int_named G [(k_idx kt, ix)] x.
Proof.
  unfold process_env. replace (Z.of_nat (t_offset t + j) - Z.of_nat (t_offset t))%Z with (Z.of_nat j) by lia. rewrite MC, TM, TL, TI.
  pose proof consts_read as CR. set (ce := defines (texts cs) []) in *.
  assert (I : match k_idxmap kt with Some (x, e) => pvalue (lookup ((x, Z.of_nat j) :: ce)) e | None => Some (Z.of_nat j) end = Some ix).
  { rewrite (ka_idxmap _ _ _ _ _ KA). pose proof (mt_index _ _ _ _ _ _ _ _ _ _ MT) as MI. pose proof (ka_index_like _ _ _ _ _ KA) as IL. destruct im as [(x, e)|]; cbn [option_map fst snd].
    - destruct (IL x e eq_refl) as (C & INC & NX). apply (pvalue_read _ G0 [(x, Z.of_nat j)]); auto. intros y Y. apply INC in Y. unfold lookup. unfold int_named. cbn [assoc].
      destruct (String.eqb_spec y x) as [->|NE]; [reflexivity|]. destruct Y as [<-|Y]; [congruence|]. destruct (CR y Y) as (E & _). exact E.
    - rewrite MI. reflexivity. }
  rewrite I. cbn [option_map]. eexists. split; [reflexivity|]. rewrite (ka_lets _ _ _ _ _ KA).
  intros x X. apply (defines_read G [(k_idx kt, ix)] (k_idx kt :: map fst cs) ls); auto.
  - apply (ka_lets_like _ _ _ _ _ KA).
  - intros y Y. unfold lookup. cbn [assoc]. unfold int_named. cbn [assoc]. destruct (String.eqb_spec y (k_idx kt)) as [->|NE]; [split; [reflexivity|discriminate]|].
    destruct Y as [<-|Y]; [congruence|]. destruct (CR y Y) as (E & NN). unfold int_named in E, NN. cbn [assoc s_lets g_consts] in E, NN.
    destruct (mt_once _ _ _ _ _ _ _ _ _ _ MT y Y) as (_ & SL). rewrite SL. split; [exact E|exact NN].
  - apply Forall_forall. intros d D. pose proof (mt_lets _ _ _ _ _ _ _ _ _ _ MT) as F. rewrite Forall_forall in F. destruct (F d D) as (z & V & A). exists z. split; auto.
    unfold int_named. cbn [assoc]. destruct (String.eqb_spec (fst d) (k_idx kt)) as [E|NE]; [|rewrite A; reflexivity].
    exfalso. apply (mt_index_once _ _ _ _ _ _ _ _ _ _ MT). rewrite <- E. apply in_map. exact D.
Qed.
End Member.
