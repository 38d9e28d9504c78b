(** Text of the simulator: numbers, names and assignments. *)
From Coq Require Import List Arith Bool ZArith Lia Ascii.
From Verif Require Import FinLib Radix FmlaModel FmlaSpec SimModel SimSpec.
Import ListNotations.
Local Open Scope list_scope.

Lemma chr_code : forall n, n < 256 -> nat_of_ascii (chr n) = n.
Proof. intros n H. apply nat_ascii_embedding. auto. Qed.
Lemma digit_chr : forall n, n < 10 -> is_digit (chr (48 + n)) = true /\ nat_of_ascii (chr (48 + n)) - 48 = n.
Proof.
  intros n H. unfold is_digit. rewrite chr_code by lia. split; [|lia]. apply andb_true_iff. split; apply Nat.leb_le; lia.
Qed.

Lemma dec_loop_digits : forall fuel n tl, n < fuel -> digits 0 (dec_loop fuel n tl) = digits (Z.of_nat n) tl.
Proof.
  induction fuel as [|fuel IH]; intros n tl H; [lia|]. cbn [dec_loop].
  assert (R : n mod 10 < 10) by (apply Nat.mod_upper_bound; lia). destruct (digit_chr _ R) as (D1 & D2).
  destruct (Nat.ltb_spec n 10) as [L|L].
  - cbn [digits]. rewrite D1, D2. f_equal. rewrite Nat.mod_small by auto. lia.
  - rewrite IH by (apply Nat.div_lt_upper_bound; lia). cbn [digits]. rewrite D1, D2. f_equal.
    pose proof (Nat.div_mod n 10 ltac:(lia)). lia.
Qed.
Lemma dec_loop_app : forall fuel n tl, dec_loop fuel n tl = dec_loop fuel n [] ++ tl.
Proof.
  induction fuel as [|fuel IH]; intros n tl; auto. cbn [dec_loop]. destruct (n <? 10); auto.
  rewrite IH, (IH _ [_]), <- app_assoc. auto.
Qed.
Lemma dec_loop_all : forall fuel n tl, Forall (fun c => is_digit c = true) tl -> Forall (fun c => is_digit c = true) (dec_loop fuel n tl).
Proof.
  induction fuel as [|fuel IH]; intros n tl H; auto. cbn [dec_loop].
  assert (R : n mod 10 < 10) by (apply Nat.mod_upper_bound; lia). destruct (digit_chr _ R) as (D1 & D2).
  destruct (n <? 10); [|apply IH]; constructor; auto.
Qed.
Lemma dec_all : forall n, Forall (fun c => is_digit c = true) (dec n).
Proof. intros n. apply dec_loop_all. constructor. Qed.
Lemma dec_loop_cons : forall fuel n, 0 < fuel -> forall tl, exists c r, dec_loop fuel n tl = c :: r.
Proof.
  induction fuel as [|fuel IH]; intros n H tl; [lia|]. cbn [dec_loop]. destruct (n <? 10); [eauto|].
  destruct fuel as [|fuel]; [cbn; eauto|]. apply IH. lia.
Qed.
Lemma dec_cons : forall n, exists c r, dec n = c :: r /\ is_digit c = true.
Proof.
  intros n. destruct (dec_loop_cons (S n) n ltac:(lia) []) as (c & r & E). exists c, r. unfold dec. split; auto.
  pose proof (dec_all n) as H. unfold dec in H. rewrite E in H. inversion H. auto.
Qed.
Lemma digits_dec : forall n r, (match r with c :: _ => is_digit c = false | [] => True end) -> digits 0 (dec n ++ r) = (Z.of_nat n, r).
Proof.
  intros n r H. unfold dec. rewrite <- dec_loop_app, dec_loop_digits by lia. destruct r as [|c r]; cbn [digits]; auto. rewrite H. auto.
Qed.
Lemma dec_inj : forall n m, dec n = dec m -> n = m.
Proof. intros n m E. pose proof (digits_dec n [] I) as H. rewrite E, (digits_dec m [] I) in H. injection H. lia. Qed.

Lemma digit_not : forall c, is_digit c = true -> is_white c = false /\ c <> c_minus /\ c <> c_close /\ c <> c_colon /\ c <> c_eq.
Proof.
  intros c H. unfold is_digit in H. apply andb_true_iff in H. destruct H as (H1 & H2). apply Nat.leb_le in H1, H2. split.
  - unfold is_white. cbn [existsb]. rewrite !(proj2 (Nat.eqb_neq (nat_of_ascii c) _)) by lia. auto.
  - repeat split; intros ->; revert H1 H2; unfold c_minus, c_close, c_colon, c_eq; rewrite chr_code by lia; lia.
Qed.
Lemma word_not : forall c, word_char c -> is_white c = false /\ c <> c_open /\ c <> c_colon /\ c <> c_eq.
Proof.
  intros c H. unfold word_char in H. cbv zeta in H. split.
  - unfold is_white. cbn [existsb]. rewrite !(proj2 (Nat.eqb_neq (nat_of_ascii c) _)) by lia. auto.
  - repeat split; intros ->; revert H; unfold c_open, c_colon, c_eq; rewrite chr_code by lia; lia.
Qed.

Lemma skip_cstr_iff : forall p s r, skip_cstr p s = Some r <-> s = p ++ r.
Proof.
  induction p as [|x p IH]; intros s r; cbn [skip_cstr app]; [split; congruence|].
  destruct s as [|y s]; [split; discriminate|]. destruct (ascii_dec x y) as [->|NE].
  - rewrite IH. split; [intros ->; auto|congruence].
  - split; [discriminate|congruence].
Qed.
Lemma skip_cstr_app : forall p r, skip_cstr p (p ++ r) = Some r.
Proof. intros. apply skip_cstr_iff. auto. Qed.
Lemma skipds_keep : forall d c r, d c = false -> skipds d (c :: r) = c :: r.
Proof. intros d c r H. cbn. rewrite H. auto. Qed.

Lemma xget_int_dec : forall n r, (match r with c :: _ => is_digit c = false | [] => True end) -> xget_int (dec n ++ r) = Some (Z.of_nat n, r).
Proof.
  intros n r H. unfold xget_int. destruct (dec_cons n) as (c & r' & E & D). destruct (digit_not c D) as (W & M & _).
  pose proof (digits_dec n r H) as G. rewrite E in *. cbn [app] in *. rewrite skipds_keep by auto. cbn [skip_cstr].
  destruct (ascii_dec c_minus c) as [X|X]; [congruence|]. unfold xget_uint. rewrite D. f_equal. exact G.
Qed.

(** The first place where a character occurs. *)
Lemma split_first : forall (c : ascii) a b x y, ~ In c a -> ~ In c b -> a ++ c :: x = b ++ c :: y -> a = b /\ x = y.
Proof.
  induction a as [|u a IH]; intros [|v b] x y NA NB E; cbn in *.
  - injection E. auto.
  - injection E as E1 _. exfalso. apply NB. auto.
  - injection E as E1 _. exfalso. apply NA. auto.
  - injection E as -> E2. destruct (IH b x y) as (-> & ->); auto.
Qed.

Section Names.
Variable ds : list nat.
Variable names : list (text * nat).
Hypothesis LEN : length names = length ds.
Hypothesis ND : NoDup names.
Hypothesis WORDS : Forall (fun b => Forall word_char (fst b)) names.
Notation name_of := (name_of names).

Lemma name_prefix : forall i j r r', i < length ds -> j < length ds -> name_of i ++ r = name_of j ++ r' -> i = j.
Proof.
  intros i j r r' I J E. unfold SimModel.name_of in E.
  assert (WI : Forall word_char (fst (nth i names ([], 0)))) by (apply (proj1 (Forall_forall _ _) WORDS), nth_In; lia).
  assert (WJ : Forall word_char (fst (nth j names ([], 0)))) by (apply (proj1 (Forall_forall _ _) WORDS), nth_In; lia).
  destruct (nth i names ([], 0)) as (b & k) eqn:Ei. destruct (nth j names ([], 0)) as (b' & k') eqn:Ej. cbn [fst] in *.
  rewrite <- !app_assoc in E. cbn [app] in E. apply split_first in E.
  2:{ intros H. rewrite Forall_forall in WI. destruct (word_not _ (WI _ H)) as (_ & X & _). contradiction. }
  2:{ intros H. rewrite Forall_forall in WJ. destruct (word_not _ (WJ _ H)) as (_ & X & _). contradiction. }
  destruct E as (-> & E).
  assert (NC : forall n, ~ In c_close (dec n)).
  { intros n H. pose proof (proj1 (Forall_forall _ _) (dec_all n) _ H) as D. destruct (digit_not _ D) as (_ & _ & X & _). contradiction. }
  apply split_first in E; auto. destruct E as (E & _). apply dec_inj in E. subst k'.
  apply (proj1 (NoDup_nth names ([], 0)) ND i j); [lia|lia|congruence].
Qed.

Lemma first_vbl_found : forall is i r, i < length ds -> Forall (fun j => j < length ds) is -> In i is -> first_vbl names is (name_of i ++ r) = Some (i, r).
Proof.
  induction is as [|j is IH]; intros i r I W IN; [destruct IN|]. cbn [first_vbl]. inversion W; subst.
  destruct (skip_cstr (name_of j) (name_of i ++ r)) as [r'|] eqn:E.
  - apply skip_cstr_iff in E. assert (j = i) by (symmetry; eapply name_prefix; eauto). subst j. apply app_inv_head in E. subst r'. auto.
  - destruct IN as [->|IN]; auto. rewrite skip_cstr_app in E. discriminate.
Qed.

Lemma name_first : forall i r, i < length ds -> skipds vbl_delim (name_of i ++ r) = name_of i ++ r.
Proof.
  intros i r I. unfold SimModel.name_of.
  assert (WI : Forall word_char (fst (nth i names ([], 0)))) by (apply (proj1 (Forall_forall _ _) WORDS), nth_In; lia).
  destruct (nth i names ([], 0)) as (b & k). cbn [fst] in *. destruct b as [|c b].
  - reflexivity.
  - cbn [app]. apply skipds_keep. inversion WI as [|? ? WC]; subst. destruct (word_not _ WC) as (W & O & C & Q). unfold vbl_delim.
    rewrite W. destruct (ascii_dec c c_colon); [contradiction|]. destruct (ascii_dec c c_eq); [contradiction|]. auto.
Qed.

Lemma parse_name : forall lead i r, lead = [] \/ lead = [c_space] -> i < length ds -> parse_variable ds names (lead ++ name_of i ++ r) = Some (i, r).
Proof.
  intros lead i r L I. unfold parse_variable.
  assert (E : skipds vbl_delim (lead ++ name_of i ++ r) = name_of i ++ r).
  { destruct L as [-> | ->]; [apply name_first; auto|]. cbn [app]. change (c_space :: name_of i ++ r) with ([c_space] ++ name_of i ++ r).
    cbn [app skipds]. change (vbl_delim c_space) with true. cbv iota. apply name_first; auto. }
  rewrite E. unfold all_ids. apply first_vbl_found; auto.
  - apply Forall_forall. intros j J. apply in_seq in J. lia.
  - apply in_seq. lia.
Qed.
Lemma first_nil : forall is, first_vbl names is [] = None.
Proof.
  induction is as [|i is IH]; auto. cbn [first_vbl]. unfold SimModel.name_of. destruct (nth i names ([], 0)) as (b & k).
  destruct b; cbn [app skip_cstr]; auto.
Qed.
Lemma parse_nil : parse_variable ds names [] = None.
Proof. unfold parse_variable. cbn [skipds]. apply first_nil. Qed.

(** What the lines do. *)
Definition put (s t : list nat) (st : list nat) (i : nat) : list nat := if nth i t 0 =? nth i s 0 then st else upd st i (nth i t 0).

Lemma assign_item_mod : forall fuel lead i x r st, lead = [] \/ lead = [c_space] -> i < length ds ->
  assign_loop ds names (S fuel) (lead ++ (name_of i ++ [c_colon; c_eq] ++ dec x ++ [c_semi]) ++ r) st = assign_loop ds names fuel r (upd st i (x mod nth i ds 0)).
Proof.
  intros fuel lead i x r st L I. cbn [assign_loop]. rewrite <- !app_assoc. rewrite parse_name by auto. cbn [app].
  rewrite skipds_keep by reflexivity. unfold skip_opt at 2. cbn [skip_cstr]. destruct (ascii_dec c_colon c_colon); [|contradiction].
  destruct (ascii_dec c_eq c_eq); [|contradiction]. destruct (dec_cons x) as (c & r' & E & D). destruct (digit_not c D) as (_ & _ & _ & _ & Q).
  assert (SK : skip_opt [c_eq] (dec x ++ c_semi :: r) = dec x ++ c_semi :: r).
  { unfold skip_opt. rewrite E. cbn [app skip_cstr]. destruct (ascii_dec c_eq c); [congruence|auto]. }
  rewrite SK. rewrite xget_int_dec by reflexivity. rewrite skipds_keep by reflexivity. unfold skip_opt. cbn [skip_cstr].
  destruct (ascii_dec c_semi c_semi); [|contradiction]. do 2 f_equal. rewrite <- Nat2Z.inj_mod. apply Nat2Z.id.
Qed.
Lemma assign_item : forall fuel lead i x r st, lead = [] \/ lead = [c_space] -> i < length ds -> x < nth i ds 0 ->
  assign_loop ds names (S fuel) (lead ++ (name_of i ++ [c_colon; c_eq] ++ dec x ++ [c_semi]) ++ r) st = assign_loop ds names fuel r (upd st i x).
Proof. intros fuel lead i x r st L I X. rewrite assign_item_mod by auto. rewrite Nat.mod_small by auto. auto. Qed.

Lemma assign_changes : forall s t is fuel lead st, lead = [] \/ lead = [c_space] ->
  Forall (fun i => i < length ds /\ nth i t 0 < nth i ds 0) is -> length (flat_map (change names s t) is) < fuel ->
  assign_loop ds names fuel (lead ++ join_with [c_space] (flat_map (change names s t) is)) st = fold_left (put s t) is st.
Proof.
  intros s t. induction is as [|i is IH]; intros fuel lead st L W F.
  - cbn [flat_map join_with fold_left]. destruct fuel as [|fuel]; [cbn in F; lia|]. cbn [assign_loop]. rewrite app_nil_r.
    assert (P : parse_variable ds names lead = None).
    { destruct L as [-> | ->]; [apply parse_nil|]. unfold parse_variable. cbn. apply first_nil. }
    rewrite P. auto.
  - inversion W as [|? ? (I & X) W']; subst. cbn [flat_map fold_left] in *. unfold change at 1, put at 2. unfold change at 1 in F.
    destruct (nth i t 0 =? nth i s 0) eqn:E; [apply IH; auto|].
    set (item := name_of i ++ [c_colon; c_eq] ++ dec (nth i t 0) ++ [c_semi]) in *. set (R := flat_map (change names s t) is) in *.
    change ([item] ++ R) with (item :: R) in *. cbn [length] in F. destruct fuel as [|fuel]; [lia|].
    assert (J : join_with [c_space] (item :: R) = item ++ (match R with [] => [] | _ => [c_space] end) ++ join_with [c_space] R).
    { cbn [join_with]. destruct R as [|y R']; [cbn [join_with app]; rewrite app_nil_r; auto|]. cbn [app]. auto. }
    rewrite J. unfold item. rewrite assign_item by auto. apply IH; auto; [destruct R; auto|lia].
Qed.

Lemma join_length : forall l, Forall (fun x : text => x <> []) l -> length l <= length (join_with [c_space] l).
Proof.
  induction l as [|x l IH]; intros H; auto. inversion H as [|? ? X H']; subst. specialize (IH H'). cbn [join_with length].
  assert (0 < length x) by (destruct x; [contradiction|cbn; lia]). destruct l as [|y l].
  - cbn. lia.
  - rewrite !app_length. cbn [length] in *. lia.
Qed.

Lemma puts_nth : forall s t is st v, length st = length ds -> Forall (fun i => i < length ds) is ->
  nth v (fold_left (put s t) is st) 0 = if in_dec Nat.eq_dec v is then (if nth v t 0 =? nth v s 0 then nth v st 0 else nth v t 0) else nth v st 0.
Proof.
  intros s t. induction is as [|i is IH]; intros st v L W; [reflexivity|]. cbn [fold_left]. inversion W; subst.
  rewrite IH by (auto; unfold put; destruct (_ =? _); auto; rewrite upd_length; auto).
  assert (P : nth v (put s t st i) 0 = if Nat.eq_dec v i then (if nth v t 0 =? nth v s 0 then nth v st 0 else nth v t 0) else nth v st 0).
  { unfold put. destruct (Nat.eq_dec v i) as [->|NE].
    - destruct (nth i t 0 =? nth i s 0); auto. apply nth_upd_same. lia.
    - destruct (nth i t 0 =? nth i s 0); auto. apply nth_upd_other; auto. }
  destruct (in_dec Nat.eq_dec v (i :: is)) as [IN|NIN], (in_dec Nat.eq_dec v is) as [IN'|NIN'].
  - rewrite P. destruct (Nat.eq_dec v i); auto. destruct (nth v t 0 =? nth v s 0); auto.
  - destruct IN as [->|]; [|contradiction]. rewrite P. destruct (Nat.eq_dec v v); [auto|contradiction].
  - exfalso. apply NIN. right. auto.
  - rewrite P. destruct (Nat.eq_dec v i) as [->|]; auto. exfalso. apply NIN. left. auto.
Qed.
Lemma puts_length : forall s t is st, length (fold_left (put s t) is st) = length st.
Proof.
  intros s t. induction is as [|i is IH]; intros st; auto. cbn [fold_left]. rewrite IH. unfold put. destruct (_ =? _); auto. apply upd_length.
Qed.

(** Reading a line changes what differs between [s] and [t], and nothing else. *)
Lemma assign_diff : forall s t st, FmlaSpec.ok ds t -> length st = length ds ->
  length (assign ds names (diff_line ds names s t) st) = length ds /\
  forall v, v < length ds -> nth v (assign ds names (diff_line ds names s t) st) 0 = if nth v t 0 =? nth v s 0 then nth v st 0 else nth v t 0.
Proof.
  intros s t st T L. unfold assign, diff_line. set (l := flat_map (change names s t) (all_ids ds)).
  assert (W : Forall (fun i => i < length ds) (all_ids ds)) by (apply Forall_forall; intros i H; apply in_seq in H; lia).
  assert (W' : Forall (fun i => i < length ds /\ nth i t 0 < nth i ds 0) (all_ids ds)).
  { apply Forall_forall. intros i H. apply in_seq in H. cbn in H. split; [lia|]. clear -T H. destruct H as (_ & H). revert i H. induction T as [|y d u l Y T IH]; intros [|i] H; cbn in *; try lia. apply IH. lia. }
  pose proof (assign_changes s t (all_ids ds) (S (length (join_with [c_space] l))) [] st (or_introl eq_refl) W') as E. cbn [app] in E.
  fold l in E. rewrite E.
  - split; [rewrite puts_length; auto|]. intros v V. rewrite puts_nth by auto. destruct (in_dec Nat.eq_dec v (all_ids ds)) as [|N]; auto.
    exfalso. apply N. apply in_seq. lia.
  - assert (NE : Forall (fun x : text => x <> []) l).
    { apply Forall_forall. intros x H. unfold l in H. apply in_flat_map in H. destruct H as (i & _ & H). unfold change in H.
      destruct (_ =? _); [destruct H|]. destruct H as [<-|[]]. intros C. apply app_eq_nil in C. destruct C as (_ & C). discriminate. }
    pose proof (join_length l NE). lia.
Qed.
Lemma assign_there : forall s t, FmlaSpec.ok ds s -> FmlaSpec.ok ds t -> assign ds names (diff_line ds names s t) s = t.
Proof.
  intros s t S T. assert (LS : length s = length ds) by (clear -S; induction S; cbn; lia). assert (LT : length t = length ds) by (clear -T; induction T; cbn; lia).
  destruct (assign_diff s t s T LS) as (L & H). apply (nth_ext _ _ 0 0); [lia|]. intros v V. rewrite H by lia.
  destruct (Nat.eqb_spec (nth v t 0) (nth v s 0)); auto.
Qed.

(** Whatever is typed, the values stay within their domains. *)
(** The lines of show-state are not assignments. *)
Lemma no_name_digits : forall is s, Forall (fun c => is_digit c = true) s -> first_vbl names is s = None.
Proof.
  induction is as [|i is IH]; intros s H; auto. cbn [first_vbl]. destruct (skip_cstr (name_of i) s) as [r|] eqn:E; [|apply IH; auto]. exfalso.
  apply skip_cstr_iff in E. unfold SimModel.name_of in E. destruct (nth i names ([], 0)) as (b & k).
  assert (C : In c_open s) by (rewrite E, !in_app_iff; left; right; left; left; auto).
  rewrite Forall_forall in H. specialize (H _ C). discriminate.
Qed.
Lemma state_line_ignored : forall i x st, i < length ds -> assign ds names (name_of i ++ [c_eq; c_eq] ++ dec x) st = st.
Proof.
  intros i x st I. unfold assign. set (fuel := length _). cbn [assign_loop]. pose proof (parse_name [] i ([c_eq; c_eq] ++ dec x) (or_introl eq_refl) I) as P.
  cbn [app] in P. cbn [app]. rewrite P. rewrite skipds_keep by reflexivity.
  change (skip_opt [c_eq] (skip_opt [c_colon; c_eq] (c_eq :: c_eq :: dec x))) with (c_eq :: dec x).
  change (xget_int (c_eq :: dec x)) with (@None (Z * text)). cbn match.
  destruct fuel as [|fuel]; auto. cbn [assign_loop]. unfold parse_variable. 
  assert (SK : skipds vbl_delim (c_eq :: dec x) = dec x).
  { cbn [skipds]. change (vbl_delim c_eq) with true. cbn match. destruct (dec_cons x) as (c & r & E & D). rewrite E. apply skipds_keep.
    destruct (digit_not c D) as (A & _ & _ & B & C). unfold vbl_delim. destruct (ascii_dec c c_colon); [contradiction|]. destruct (ascii_dec c c_eq); [contradiction|]. auto. }
  rewrite SK. rewrite no_name_digits by apply dec_all. auto.
Qed.

(** Any assignments. *)
Definition item (p : nat * nat) : text := name_of (fst p) ++ [c_colon; c_eq] ++ dec (snd p) ++ [c_semi].
Lemma assign_items_loop : forall items fuel lead st, lead = [] \/ lead = [c_space] ->
  Forall (fun p => fst p < length ds) items -> length items < fuel ->
  assign_loop ds names fuel (lead ++ join_with [c_space] (map item items)) st
  = fold_left (fun u p => upd u (fst p) (snd p mod nth (fst p) ds 0)) items st.
Proof.
  induction items as [|p items IH]; intros fuel lead st L W F; (destruct fuel as [|fuel]; [cbn in F; lia|]).
  - cbn [map join_with fold_left assign_loop]. rewrite app_nil_r.
    assert (P : parse_variable ds names lead = None).
    { destruct L as [-> | ->]; [apply parse_nil|]. unfold parse_variable. cbn. apply first_nil. }
    rewrite P. auto.
  - inversion W as [|? ? I W']; subst. cbn [map fold_left length] in *. set (R := map item items) in *.
    assert (J : join_with [c_space] (item p :: R) = item p ++ (match R with [] => [] | _ => [c_space] end) ++ join_with [c_space] R).
    { cbn [join_with]. destruct R as [|y R']; [cbn [join_with app]; rewrite app_nil_r; auto|]. cbn [app]. auto. }
    rewrite J. unfold item at 1. rewrite assign_item_mod by auto. apply IH; auto; [destruct R; auto|lia].
Qed.
Lemma assign_items : forall items st, Forall (fun p => fst p < length ds) items ->
  assign ds names (join_with [c_space] (map item items)) st = fold_left (fun u p => upd u (fst p) (snd p mod nth (fst p) ds 0)) items st.
Proof.
  intros items st W. unfold assign. apply (assign_items_loop items _ []); auto.
  assert (NE : Forall (fun x : text => x <> []) (map item items)).
  { apply Forall_forall. intros x H. apply in_map_iff in H. destruct H as (p & <- & _). unfold item. intros C. apply app_eq_nil in C. destruct C as (_ & C). discriminate. }
  pose proof (join_length _ NE) as J. rewrite map_length in J. lia.
Qed.

Lemma upd_ok : forall st i x, FmlaSpec.ok ds st -> x < nth i ds 0 -> FmlaSpec.ok ds (upd st i x).
Proof.
  intros st i x. unfold FmlaSpec.ok. clear LEN. revert i. induction ds as [|d l IH] in st |- *; intros i H X; inversion H; subst.
  - destruct i; cbn; constructor.
  - destruct i as [|i]; cbn in *; constructor; auto.
Qed.
Lemma assign_loop_ok : inhabited ds -> forall fuel s st, FmlaSpec.ok ds st -> FmlaSpec.ok ds (assign_loop ds names fuel s st).
Proof.
  intros INH. induction fuel as [|fuel IH]; intros s st H; auto. cbn [assign_loop]. destruct (parse_variable ds names s) as [(i & r)|] eqn:P; auto.
  destruct (xget_int _) as [(z & r')|]; auto. apply IH. apply upd_ok; auto.
  assert (I : i < length ds).
  { unfold parse_variable in P. assert (K : forall is s, first_vbl names is s = Some (i, r) -> In i is).
    { induction is as [|j is IHis]; intros s0 E; [discriminate|]. cbn [first_vbl] in E. destruct (skip_cstr _ s0); [injection E as -> _; left; auto|right; eauto]. }
    apply K in P. apply in_seq in P. lia. }
  assert (D : 1 <= nth i ds 0) by (apply (proj1 (Forall_forall _ _) INH), nth_In; auto).
  pose proof (Z.mod_pos_bound z (Z.of_nat (nth i ds 0)) ltac:(lia)). lia.
Qed.
End Names.
