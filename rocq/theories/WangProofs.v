From Coq Require Import List Arith Bool NArith Lia.
From Verif Require Import UniModel UniSpec UniProofs WangModel WangSpec.
Import ListNotations.

(** * Ids *)
Lemma sym_eqb_eq : forall x y, sym_eqb x y = true <-> x = y.
Proof.
  intros ((a & b) & c) ((d & e) & f). unfold sym_eqb. rewrite !andb_true_iff, !N.eqb_eq. split; [intros ((-> & ->) & ->); auto|intros H; injection H; auto].
Qed.
Lemma sym_index_some : forall m x i, sym_index m x = Some i -> nth_error m i = Some x.
Proof.
  induction m as [|y m IH]; intros x i H; cbn in H; [discriminate|]. destruct (sym_eqb y x) eqn:E.
  - injection H as <-. apply sym_eqb_eq in E. cbn. congruence.
  - destruct (sym_index m x) eqn:F; [|discriminate]. injection H as <-. cbn. auto.
Qed.
Lemma sym_index_none : forall m x, sym_index m x = None -> ~ In x m.
Proof.
  induction m as [|y m IH]; intros x H; cbn in *; [auto|]. destruct (sym_eqb y x) eqn:E; [discriminate|].
  destruct (sym_index m x) eqn:F; [discriminate|]. intros [->|I]; [|exact (IH x F I)].
  assert (sym_eqb x x = true) by (apply sym_eqb_eq; auto). congruence.
Qed.
Definition extends (m m' : list sym) : Prop := forall i x, nth_error m i = Some x -> nth_error m' i = Some x.
Lemma extends_refl : forall m, extends m m.
Proof. intros m i x H. auto. Qed.
Lemma extends_trans : forall a b c, extends a b -> extends b c -> extends a c.
Proof. intros a b c H1 H2 i x H. auto. Qed.
Lemma lookup_spec : forall m x m' i, LookupSymId m x = (m', i) -> NoDup m -> NoDup m' /\ extends m m' /\ nth_error m' i = Some x.
Proof.
  intros m x m' i H ND. unfold LookupSymId in H. destruct (sym_index m x) eqn:E; injection H as <- <-.
  - split; auto. split; [apply extends_refl|]. apply sym_index_some. auto.
  - split.
    + apply sym_index_none in E. clear - ND E. induction m as [|y m IH]; cbn; [constructor; auto; constructor|]. inversion ND; subst. constructor.
      * rewrite in_app_iff. cbn. intros [I|[->|[]]]; auto. apply E. left. auto.
      * apply IH; auto. intros I. apply E. right. auto.
    + split; [intros i y H; rewrite nth_error_app1; auto; apply nth_error_Some; congruence|].
      rewrite nth_error_app2, Nat.sub_diag by lia. auto.
Qed.

(** * Sets of actions *)
Lemma act_eqb_eq : forall x y, act_eqb x y = true <-> x = y.
Proof.
  intros ((a & b) & c) ((d & e) & f). unfold act_eqb. rewrite !andb_true_iff, !Nat.eqb_eq. split; [intros ((-> & ->) & ->); auto|intros H; injection H; auto].
Qed.
Lemma actset_add_in : forall s x y, In y (actset_add s x) <-> y = x \/ In y s.
Proof.
  induction s as [|z s IH]; intros x y; cbn; [intuition|]. destruct (act_ltb x z); [cbn; intuition|]. destruct (act_eqb x z) eqn:E.
  - apply act_eqb_eq in E. subst. cbn. intuition.
  - cbn. rewrite IH. tauto.
Qed.
Lemma actset_adds_in : forall l s y, In y (fold_left actset_add l s) <-> In y l \/ In y s.
Proof. induction l as [|x l IH]; intros s y; cbn; [tauto|]. rewrite IH, actset_add_in. intuition. Qed.

Definition act_lt (x y : UniAct) : Prop := act_ltb x y = true.
Lemma act_ltb_iff : forall a b c d e f, act_ltb (a, b, c) (d, e, f) = true <-> a < d \/ (a = d /\ (b < e \/ (b = e /\ c < f))).
Proof. intros. unfold act_ltb. rewrite !orb_true_iff, !andb_true_iff, !orb_true_iff, !andb_true_iff, !Nat.ltb_lt, !Nat.eqb_eq. tauto. Qed.
Inductive sorted : list UniAct -> Prop :=
| sorted_nil : sorted []
| sorted_cons : forall x s, Forall (act_lt x) s -> sorted s -> sorted (x :: s).
Lemma act_lt_trans : forall x y z, act_lt x y -> act_lt y z -> act_lt x z.
Proof. intros ((a & b) & c) ((d & e) & f) ((g & h) & i). unfold act_lt. rewrite !act_ltb_iff. lia. Qed.
Lemma act_lt_total : forall x y, act_ltb x y = false -> act_eqb x y = false -> act_lt y x.
Proof.
  intros ((a & b) & c) ((d & e) & f) H1 H2. unfold act_lt. rewrite act_ltb_iff.
  assert (N1 : ~ (a < d \/ (a = d /\ (b < e \/ (b = e /\ c < f))))) by (rewrite <- act_ltb_iff; congruence).
  assert (N2 : ~ (a = d /\ b = e /\ c = f)). { intros (-> & -> & ->). rewrite (proj2 (act_eqb_eq _ _)) in H2; auto. discriminate. } lia.
Qed.
Lemma actset_add_sorted : forall s x, sorted s -> sorted (actset_add s x).
Proof.
  induction s as [|y s IH]; intros x H; cbn; [constructor; constructor|]. inversion H as [|? ? F S0]; subst. destruct (act_ltb x y) eqn:L.
  - constructor; auto. constructor; auto. eapply Forall_impl; [|exact F]. intros z. apply act_lt_trans. auto.
  - destruct (act_eqb x y) eqn:E; [constructor; auto|]. constructor; auto. apply Forall_forall. intros z Z. apply actset_add_in in Z.
    destruct Z as [->|Z]; [apply act_lt_total; auto|]. rewrite Forall_forall in F. auto.
Qed.
Lemma actset_adds_sorted : forall l s, sorted s -> sorted (fold_left actset_add l s).
Proof. induction l as [|x l IH]; intros s H; cbn; auto. apply IH, actset_add_sorted, H. Qed.
Lemma sorted_NoDup : forall s, sorted s -> NoDup s.
Proof.
  induction 1 as [|x s F H IH]; constructor; auto. intros I. rewrite Forall_forall in F. specialize (F x I). destruct x as ((a & b) & c). unfold act_lt in F. rewrite act_ltb_iff in F. lia.
Qed.

(** * Colours *)
Inductive colour := Doll | Id00 | Id11 | Hash | CD (c d : N) | T0 (v : N) | T1 (v : N) | T00 (v : N) | T11 (v : N).
Definition rule := colour -> colour -> colour -> Prop.

Inductive plain (W : list tile) : rule :=
| p1 : forall w n s e, In (w, n, s, e) W -> plain W (T0 w) (T1 n) (CD s e)
| p2 : forall w n s e, In (w, n, s, e) W -> plain W Doll (CD s e) (T1 s)
| p3 : forall w n s e, In (w, n, s, e) W -> plain W (CD s e) Doll (T0 e)
| p4 : forall w n s e, In (w, n, s, e) W -> plain W (T1 s) (T0 e) Doll.
Inductive half (W : list tile) : rule :=
| h1 : forall w n s e, In (w, n, s, e) W -> half W (T0 w) (T1 n) (CD s e)
| h2 : forall w n s e, In (w, n, s, e) W -> half W (CD s e) Id00 (T00 e)
| h3 : forall w n s e, In (w, n, s, e) W -> half W (T00 e) Doll (T0 e)
| h4 : forall w n s e, In (w, n, s, e) W -> half W Id11 (CD s e) (T11 s)
| h5 : forall w n s e, In (w, n, s, e) W -> half W (T11 s) (T00 e) Hash
| h6 : forall w n s e, In (w, n, s, e) W -> half W Hash (T0 e) Id11
| h7 : forall w n s e, In (w, n, s, e) W -> half W Doll (T11 s) (T1 s)
| h8 : forall w n s e, In (w, n, s, e) W -> half W (T1 s) Hash Id00
| h9 : forall w n s e, In (w, n, s, e) W -> half W Id00 Id11 Doll.
Definition both (W : list tile) : rule := fun x y z => half W x y z \/ half W y x z.

Definition enc1 (x : colour) : sym :=
  match x with
  | CD c d => cd_sym c d
  | T0 v => tag_sym v 0 direction_tag
  | T1 v => tag_sym v 1 direction_tag
  | _ => doll_sym
  end.
Definition enc2 (x : colour) : sym :=
  match x with
  | Id00 => tag_sym 0 0 special_tag
  | Id11 => tag_sym 1 0 special_tag
  | Hash => tag_sym 3 0 special_tag
  | Doll => tag_sym 2 0 special_tag
  | CD c d => cd_sym c d
  | T0 v => tag_sym v 0 direction_tag
  | T1 v => tag_sym v 1 direction_tag
  | T00 v => tag_sym v 0 double_direction_tag
  | T11 v => tag_sym v 1 double_direction_tag
  end.
Definition dec1 (x : sym) : colour :=
  let '(a, b, t) := x in
  if (t =? UINT_MAX)%N then (if ((a =? UINT_MAX) && (b =? UINT_MAX))%N then Doll else CD a b)
  else if (b =? 0)%N then T0 a else T1 a.
Definition dec2 (x : sym) : colour :=
  let '(a, b, t) := x in
  if (t =? UINT_MAX)%N then CD a b
  else if (t =? 0)%N then (if (a =? 0)%N then Id00 else if (a =? 1)%N then Id11 else if (a =? 2)%N then Doll else Hash)
  else if (t =? 1)%N then (if (b =? 0)%N then T0 a else T1 a)
  else (if (b =? 0)%N then T00 a else T11 a).
Definition good1 (x : colour) : Prop :=
  match x with
  | CD c d => c <> UINT_MAX \/ d <> UINT_MAX
  | T0 _ | T1 _ | Doll => True
  | _ => False
  end.
Lemma dec_enc1 : forall x, good1 x -> dec1 (enc1 x) = x.
Proof.
  intros [| | | |c d|v|v|v|v] G; try contradiction; try reflexivity.
  unfold dec1, enc1, cd_sym. rewrite N.eqb_refl. destruct ((c =? UINT_MAX) && (d =? UINT_MAX))%N eqn:E; auto.
  apply andb_true_iff in E. rewrite !N.eqb_eq in E. cbn in G. tauto.
Qed.
Lemma dec_enc2 : forall x, dec2 (enc2 x) = x.
Proof. intros [| | | |c d|v|v|v|v]; reflexivity. Qed.

(** What a reduction makes: the actions are those of the rule, through ids. *)
Definition realises (enc : colour -> sym) (R : rule) (m : list sym) (acts : list UniAct) : Prop :=
  NoDup m /\ sorted acts /\
  forall a b c, In (a, b, c) acts <->
    exists x y z, R x y z /\ nth_error m a = Some (enc x) /\ nth_error m b = Some (enc y) /\ nth_error m c = Some (enc z).
Lemma nth_error_inj : forall (m : list sym) i j x, NoDup m -> nth_error m i = Some x -> nth_error m j = Some x -> i = j.
Proof.
  intros m i j x ND H1 H2. apply (proj1 (NoDup_nth_error m) ND); [|congruence]. apply nth_error_Some. congruence.
Qed.

Lemma realises_more : forall enc (R R' : rule) m m' acts l,
  realises enc R m acts -> extends m m' -> NoDup m' ->
  (forall a b c, In (a, b, c) l -> exists x y z, R' x y z /\ nth_error m' a = Some (enc x) /\ nth_error m' b = Some (enc y) /\ nth_error m' c = Some (enc z)) ->
  (forall x y z, R' x y z -> exists a b c, In (a, b, c) l /\ nth_error m' a = Some (enc x) /\ nth_error m' b = Some (enc y) /\ nth_error m' c = Some (enc z)) ->
  (forall x y z, R x y z -> exists a b c, nth_error m a = Some (enc x) /\ nth_error m b = Some (enc y) /\ nth_error m c = Some (enc z)) ->
  realises enc (fun x y z => R x y z \/ R' x y z) m' (fold_left actset_add l acts) /\
  (forall x y z, R x y z \/ R' x y z -> exists a b c, nth_error m' a = Some (enc x) /\ nth_error m' b = Some (enc y) /\ nth_error m' c = Some (enc z)).
Proof.
  intros enc R R' m m' acts l (ND & SO & H) E ND' L1 L2 C. split.
  - split; auto. split; [apply actset_adds_sorted; auto|]. intros a b c. rewrite actset_adds_in. split.
    + intros [I|I].
      * destruct (L1 a b c I) as (x & y & z & R0 & H1 & H2 & H3). exists x, y, z. auto.
      * apply H in I. destruct I as (x & y & z & R0 & H1 & H2 & H3). exists x, y, z. split; auto.
    + intros (x & y & z & [R0|R0] & H1 & H2 & H3).
      * right. apply H. destruct (C x y z R0) as (a' & b' & c' & K1 & K2 & K3).
        assert (a = a') by (apply (nth_error_inj m' a a' (enc x)); auto). assert (b = b') by (apply (nth_error_inj m' b b' (enc y)); auto).
        assert (c = c') by (apply (nth_error_inj m' c c' (enc z)); auto). subst. exists x, y, z. auto.
      * left. destruct (L2 x y z R0) as (a' & b' & c' & I & K1 & K2 & K3).
        assert (a = a') by (apply (nth_error_inj m' a a' (enc x)); auto). assert (b = b') by (apply (nth_error_inj m' b b' (enc y)); auto).
        assert (c = c') by (apply (nth_error_inj m' c c' (enc z)); auto). subst. auto.
  - intros x y z [R0|R0].
    + destruct (C x y z R0) as (a' & b' & c' & K1 & K2 & K3). exists a', b', c'. auto.
    + destruct (L2 x y z R0) as (a' & b' & c' & I & K1 & K2 & K3). exists a', b', c'. auto.
Qed.
Definition covers (enc : colour -> sym) (R : rule) (m : list sym) : Prop :=
  forall x y z, R x y z -> exists a b c, nth_error m a = Some (enc x) /\ nth_error m b = Some (enc y) /\ nth_error m c = Some (enc z).
Lemma realises_iff : forall enc (R R' : rule) m acts, (forall x y z, R x y z <-> R' x y z) -> realises enc R m acts -> realises enc R' m acts.
Proof.
  intros enc R R' m acts E (H1 & H2 & H3). split; auto. split; auto. intros a b c. rewrite H3. split; intros (x & y & z & R0 & K); exists x, y, z; split; auto; apply E; auto.
Qed.

(** ** The plain reduction *)
Lemma plain_app : forall W t x y z, plain (W ++ [t]) x y z <-> plain W x y z \/ plain [t] x y z.
Proof.
  intros W t x y z. split.
  - intros H. inversion H as [w n s e I|w n s e I|w n s e I|w n s e I]; subst; apply in_app_iff in I; destruct I as [I|I]; [left|right|left|right|left|right|left|right];
    econstructor; eauto.
  - intros [H|H]; inversion H as [w n s e I|w n s e I|w n s e I|w n s e I]; subst; econstructor; apply in_app_iff; eauto.
Qed.
Ltac lookups :=
  repeat match goal with
  | H : (let '(_, _) := LookupSymId ?m ?x in _) = _ |- _ => let E := fresh "E" in destruct (LookupSymId m x) eqn:E
  | |- context [let '(_, _) := LookupSymId ?m ?x in _] => let E := fresh "E" in destruct (LookupSymId m x) eqn:E
  end.
Ltac ids :=
  repeat match goal with
  | E : LookupSymId ?m ?x = (?m', ?i), ND : NoDup ?m |- _ =>
      let A := fresh "ND" in let B := fresh "KX" in let C := fresh "KI" in
      destruct (lookup_spec m x m' i E ND) as (A & B & C); clear E
  end.
Ltac lift :=
  repeat match goal with
  | X : extends ?m ?m', I : nth_error ?m ?i = Some ?x |- nth_error ?m'' ?i = Some ?x => first [exact I | apply X in I]
  end; auto.

Lemma reduce_tile_spec : forall W t m acts doll, NoDup m -> realises enc1 (plain W) m acts -> covers enc1 (plain W) m -> nth_error m doll = Some doll_sym ->
  forall m' acts', reduce_tile doll (m, acts) t = (m', acts') ->
  realises enc1 (plain (W ++ [t])) m' acts' /\ covers enc1 (plain (W ++ [t])) m' /\ nth_error m' doll = Some doll_sym /\ extends m m'.
Proof.
  intros W [[[w n] s] e] m acts doll ND R C D m' acts' H. unfold reduce_tile in H.
  destruct (LookupSymId m (cd_sym s e)) as (m1 & cd) eqn:E1. destruct (LookupSymId m1 (tag_sym w 0 direction_tag)) as (m2 & a0) eqn:E2.
  destruct (LookupSymId m2 (tag_sym n 1 direction_tag)) as (m3 & b1) eqn:E3. destruct (LookupSymId m3 (tag_sym s 1 direction_tag)) as (m4 & c1) eqn:E4.
  destruct (LookupSymId m4 (tag_sym e 0 direction_tag)) as (m5 & d0) eqn:E5. injection H as <- <-. ids.
  assert (EX : extends m m5) by (repeat (eapply extends_trans; [eassumption|]); apply extends_refl).
  assert (Kcd : nth_error m5 cd = Some (enc1 (CD s e))) by auto.
  assert (Ka : nth_error m5 a0 = Some (enc1 (T0 w))) by auto.
  assert (Kb : nth_error m5 b1 = Some (enc1 (T1 n))) by auto.
  assert (Kc : nth_error m5 c1 = Some (enc1 (T1 s))) by auto.
  assert (Kd : nth_error m5 d0 = Some (enc1 (T0 e))) by auto.
  assert (KD : nth_error m5 doll = Some (enc1 Doll)) by (apply EX; auto).
  destruct (realises_more enc1 (plain W) (plain [(w, n, s, e)]) m m5 acts [(a0, b1, cd); (doll, cd, c1); (cd, doll, d0); (c1, d0, doll)]) as (R1 & C1); auto.
  - intros a b c I. cbn [In] in I. assert (IT : In (w, n, s, e) [(w, n, s, e)]) by (left; auto).
    destruct I as [I|[I|[I|[I|[]]]]]; injection I as <- <- <-; 
      first [ solve [exists (T0 w), (T1 n), (CD s e); split; [eapply p1; exact IT|auto]] | solve [exists Doll, (CD s e), (T1 s); split; [eapply p2; exact IT|auto]]
            | solve [exists (CD s e), Doll, (T0 e); split; [eapply p3; exact IT|auto]] | solve [exists (T1 s), (T0 e), Doll; split; [eapply p4; exact IT|auto]] ].
  - intros x y z H. inversion H as [w' n' s' e' I|w' n' s' e' I|w' n' s' e' I|w' n' s' e' I]; subst; destruct I as [I|[]]; injection I as <- <- <- <-.
    + exists a0, b1, cd. split; [cbn; auto|]. auto.
    + exists doll, cd, c1. split; [cbn; auto|]. auto.
    + exists cd, doll, d0. split; [cbn; auto|]. auto.
    + exists c1, d0, doll. split; [cbn; auto|]. auto.
  - split; [eapply realises_iff; [|exact R1]; intros x y z; rewrite plain_app; tauto|]. split; [|split; auto].
    intros x y z H. apply plain_app in H. apply C1. auto.
Qed.
Lemma reduce_tiles_spec : forall l W m acts doll, NoDup m -> realises enc1 (plain W) m acts -> covers enc1 (plain W) m -> nth_error m doll = Some doll_sym ->
  forall m' acts', fold_left (reduce_tile doll) l (m, acts) = (m', acts') ->
  realises enc1 (plain (W ++ l)) m' acts' /\ nth_error m' doll = Some doll_sym /\ covers enc1 (plain (W ++ l)) m'.
Proof.
  induction l as [|t l IH]; intros W m acts doll ND R C D m' acts' H; cbn [fold_left] in H.
  - injection H as <- <-. rewrite app_nil_r. auto.
  - destruct (reduce_tile doll (m, acts) t) as (m1 & acts1) eqn:E. destruct (reduce_tile_spec W t m acts doll ND R C D m1 acts1 E) as (R1 & C1 & D1 & _).
    replace (W ++ t :: l) with ((W ++ [t]) ++ l) by (rewrite <- app_assoc; auto). apply (IH (W ++ [t]) m1 acts1 doll); auto. apply R1.
Qed.
Lemma reserve_spec : forall tiles m, NoDup m -> NoDup (reserve_low_ids m tiles) /\ extends m (reserve_low_ids m tiles).
Proof.
  intros tiles m ND. unfold reserve_low_ids. destruct (fold_left _ tiles ([], [])) as (ri & up).
  assert (L : forall d l m, NoDup m -> NoDup (fold_left (fun m x => fst (LookupSymId m (tag_sym x d direction_tag))) l m) /\ extends m (fold_left (fun m x => fst (LookupSymId m (tag_sym x d direction_tag))) l m)).
  { intros d. induction l as [|x l IH]; intros m0 ND0; cbn [fold_left]; [split; auto; apply extends_refl|].
    destruct (LookupSymId m0 (tag_sym x d direction_tag)) as (m1 & i) eqn:E. cbn [fst]. destruct (lookup_spec _ _ _ _ E ND0) as (N1 & X1 & _).
    destruct (IH m1 N1) as (N2 & X2). split; auto. eapply extends_trans; eauto. }
  destruct (L 0%N ri m ND) as (N1 & X1). destruct (L 1%N up _ N1) as (N2 & X2). split; auto. eapply extends_trans; eauto.
Qed.
Theorem plain_reduction : forall W, exists m doll, realises enc1 (plain W) m (fst (ReduceToActionTiles W)) /\ snd (ReduceToActionTiles W) = length m /\ nth_error m doll = Some doll_sym /\ covers enc1 (plain W) m.
Proof.
  intros W. unfold ReduceToActionTiles. destruct (LookupSymId [] doll_sym) as (m & doll) eqn:E. destruct (lookup_spec _ _ _ _ E ltac:(constructor)) as (ND & _ & D).
  destruct (reserve_spec W m ND) as (ND' & X). apply X in D. destruct (fold_left _ W _) as (m' & acts) eqn:F. exists m', doll. cbn [fst snd].
  assert (NP : forall x y z, ~ plain [] x y z) by (intros x y z H; inversion H; contradiction).
  destruct (reduce_tiles_spec W [] (reserve_low_ids m W) [] doll) with (m' := m') (acts' := acts) as (R & D' & CV); auto.
  - split; auto. split; [constructor|]. intros a b c. split; [intros []|]. intros (x & y & z & H & _). exact (NP x y z H).
  - intros x y z H. destruct (NP x y z H).
Qed.

(** ** The commutative reduction *)
Lemma both_app : forall W t x y z, both (W ++ [t]) x y z <-> both W x y z \/ both [t] x y z.
Proof.
  intros W t x y z. assert (K : forall x y, half (W ++ [t]) x y z <-> half W x y z \/ half [t] x y z).
  { clear x y. intros x y. split.
    - intros H. inversion H as [w n s e I|w n s e I|w n s e I|w n s e I|w n s e I|w n s e I|w n s e I|w n s e I|w n s e I]; subst; apply in_app_iff in I; destruct I as [I|I]; (left; econstructor; eassumption) || (right; econstructor; eassumption).
    - intros [H|H]; inversion H as [w n s e I|w n s e I|w n s e I|w n s e I|w n s e I|w n s e I|w n s e I|w n s e I|w n s e I]; subst; econstructor; apply in_app_iff; eauto. }
  unfold both. rewrite !K. tauto.
Qed.
Definition specials (m : list sym) (id00 id11 hash doll : nat) : Prop :=
  nth_error m id00 = Some (enc2 Id00) /\ nth_error m id11 = Some (enc2 Id11) /\ nth_error m hash = Some (enc2 Hash) /\ nth_error m doll = Some (enc2 Doll).
Ltac K x y z h :=
  first [ solve [exists x, y, z; split; [left; eapply h; left; reflexivity|split; [assumption|split; assumption]]]
        | solve [exists y, x, z; split; [right; eapply h; left; reflexivity|split; [assumption|split; assumption]]] ].
Lemma commute_tile_spec : forall W t m acts id00 id11 hash doll, NoDup m -> realises enc2 (both W) m acts -> covers enc2 (both W) m -> specials m id00 id11 hash doll ->
  forall m' acts', commute_tile id00 id11 hash doll (m, acts) t = (m', acts') ->
  realises enc2 (both (W ++ [t])) m' acts' /\ covers enc2 (both (W ++ [t])) m' /\ specials m' id00 id11 hash doll /\ extends m m'.
Proof.
  intros W [[[w n] s] e] m acts id00 id11 hash doll ND R C D m' acts' H. unfold commute_tile in H.
  destruct (LookupSymId m (cd_sym s e)) as (m1 & cd) eqn:E1. destruct (LookupSymId m1 (tag_sym w 0 direction_tag)) as (m2 & a0) eqn:E2.
  destruct (LookupSymId m2 (tag_sym e 0 direction_tag)) as (m3 & d0) eqn:E3. destruct (LookupSymId m3 (tag_sym e 0 double_direction_tag)) as (m4 & d00) eqn:E4.
  destruct (LookupSymId m4 (tag_sym n 1 direction_tag)) as (m5 & b1) eqn:E5. destruct (LookupSymId m5 (tag_sym s 1 direction_tag)) as (m6 & c1) eqn:E6.
  destruct (LookupSymId m6 (tag_sym s 1 double_direction_tag)) as (m7 & c11) eqn:E7. injection H as <- <-. ids.
  assert (EX : extends m m7) by (repeat (eapply extends_trans; [eassumption|]); apply extends_refl).
  assert (Kcd : nth_error m7 cd = Some (enc2 (CD s e))) by auto 10.
  assert (Ka : nth_error m7 a0 = Some (enc2 (T0 w))) by auto 10.
  assert (Kb : nth_error m7 b1 = Some (enc2 (T1 n))) by auto 10.
  assert (Kc : nth_error m7 c1 = Some (enc2 (T1 s))) by auto 10.
  assert (Kd : nth_error m7 d0 = Some (enc2 (T0 e))) by auto 10.
  assert (Kd2 : nth_error m7 d00 = Some (enc2 (T00 e))) by auto 10.
  assert (Kc2 : nth_error m7 c11 = Some (enc2 (T11 s))) by auto 10.
  destruct D as (D1 & D2 & D3 & D4). apply EX in D1, D2, D3, D4.
  set (l := ReductionRow a0 b1 cd id00 d00 doll d0 ++ ReductionRow id11 cd c11 d00 hash d0 id11 ++ ReductionRow doll c11 c1 hash id00 id11 doll).
  assert (LH : forall x y z, half [(w, n, s, e)] x y z -> exists a b c, In (a, b, c) l /\ In (b, a, c) l /\ nth_error m7 a = Some (enc2 x) /\ nth_error m7 b = Some (enc2 y) /\ nth_error m7 c = Some (enc2 z)).
  { intros x y z H. inversion H as [w' n' s' e' I|w' n' s' e' I|w' n' s' e' I|w' n' s' e' I|w' n' s' e' I|w' n' s' e' I|w' n' s' e' I|w' n' s' e' I|w' n' s' e' I]; subst; destruct I as [I|[]]; injection I as <- <- <- <-.
    - exists a0, b1, cd. split; [cbn; tauto|]. split; [cbn; tauto|]. auto.
    - exists cd, id00, d00. split; [cbn; tauto|]. split; [cbn; tauto|]. auto.
    - exists d00, doll, d0. split; [cbn; tauto|]. split; [cbn; tauto|]. auto.
    - exists id11, cd, c11. split; [cbn; tauto|]. split; [cbn; tauto|]. auto.
    - exists c11, d00, hash. split; [cbn; tauto|]. split; [cbn; tauto|]. auto.
    - exists hash, d0, id11. split; [cbn; tauto|]. split; [cbn; tauto|]. auto.
    - exists doll, c11, c1. split; [cbn; tauto|]. split; [cbn; tauto|]. auto.
    - exists c1, hash, id00. split; [cbn; tauto|]. split; [cbn; tauto|]. auto.
    - exists id00, id11, doll. split; [cbn; tauto|]. split; [cbn; tauto|]. auto. }
  destruct (realises_more enc2 (both W) (both [(w, n, s, e)]) m m7 acts l) as (R1 & C1); auto.
  - intros a b c I. assert (IT : In (w, n, s, e) [(w, n, s, e)]) by (left; auto). unfold l, ReductionRow, ReductionTile in I. cbn [app In] in I.
    repeat match type of I with _ \/ _ => destruct I as [I|I] | False => destruct I end; injection I as <- <- <-;
      first [ K (T0 w) (T1 n) (CD s e) (h1 [(w, n, s, e)]) | K (CD s e) Id00 (T00 e) (h2 [(w, n, s, e)]) | K (T00 e) Doll (T0 e) (h3 [(w, n, s, e)])
            | K Id11 (CD s e) (T11 s) (h4 [(w, n, s, e)]) | K (T11 s) (T00 e) Hash (h5 [(w, n, s, e)]) | K Hash (T0 e) Id11 (h6 [(w, n, s, e)])
            | K Doll (T11 s) (T1 s) (h7 [(w, n, s, e)]) | K (T1 s) Hash Id00 (h8 [(w, n, s, e)]) | K Id00 Id11 Doll (h9 [(w, n, s, e)]) ].
  - intros x y z [H|H]; destruct (LH _ _ _ H) as (a & b & c & I1 & I2 & K1 & K2 & K3); [exists a, b, c|exists b, a, c]; auto.
  - split; [eapply realises_iff; [|exact R1]; intros x y z; rewrite both_app; tauto|]. split; [|split; auto].
    + intros x y z H. apply both_app in H. apply C1. auto.
    + repeat split; auto.
Qed.
Lemma commute_tiles_spec : forall l W m acts id00 id11 hash doll, NoDup m -> realises enc2 (both W) m acts -> covers enc2 (both W) m -> specials m id00 id11 hash doll ->
  forall m' acts', fold_left (commute_tile id00 id11 hash doll) l (m, acts) = (m', acts') ->
  realises enc2 (both (W ++ l)) m' acts' /\ specials m' id00 id11 hash doll /\ covers enc2 (both (W ++ l)) m'.
Proof.
  induction l as [|t l IH]; intros W m acts id00 id11 hash doll ND R C D m' acts' H; cbn [fold_left] in H.
  - injection H as <- <-. rewrite app_nil_r. auto.
  - destruct (commute_tile id00 id11 hash doll (m, acts) t) as (m1 & acts1) eqn:E. destruct (commute_tile_spec W t m acts id00 id11 hash doll ND R C D m1 acts1 E) as (R1 & C1 & D1 & _).
    replace (W ++ t :: l) with ((W ++ [t]) ++ l) by (rewrite <- app_assoc; auto). apply (IH (W ++ [t]) m1 acts1 id00 id11 hash doll); auto. apply R1.
Qed.
Theorem both_reduction : forall W, exists m doll, realises enc2 (both W) m (fst (ReduceToCommutativeTiles W)) /\ snd (ReduceToCommutativeTiles W) = length m /\ nth_error m doll = Some (enc2 Doll) /\ covers enc2 (both W) m.
Proof.
  intros W. unfold ReduceToCommutativeTiles.
  destruct (LookupSymId [] (tag_sym 0 0 special_tag)) as (m1 & id00) eqn:E1. destruct (LookupSymId m1 (tag_sym 1 0 special_tag)) as (m2 & id11) eqn:E2.
  destruct (LookupSymId m2 (tag_sym 3 0 special_tag)) as (m3 & hash) eqn:E3. destruct (LookupSymId m3 (tag_sym 2 0 special_tag)) as (m4 & doll) eqn:E4.
  assert (ND : NoDup (@nil sym)) by constructor. ids. destruct (fold_left _ W _) as (m' & acts) eqn:F. exists m', doll. cbn [fst snd].
  assert (NP : forall x y z, ~ both [] x y z) by (intros x y z [H|H]; inversion H; contradiction).
  destruct (commute_tiles_spec W [] m4 [] id00 id11 hash doll) with (m' := m') (acts' := acts) as (R & D' & CV); auto.
  - split; auto. split; [constructor|]. intros a b c. split; [intros []|]. intros (x & y & z & H & _). exact (NP x y z H).
  - intros x y z H. destruct (NP x y z H).
  - repeat split; auto.
  - split; auto. split; auto. split; [apply D'|auto].
Qed.
