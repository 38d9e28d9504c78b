(** The style of an invariant: proofs. *)
From Coq Require Import String List Arith Bool Ascii Lia.
From Verif Require Import DeclModel StyleModel StyleSpec.
Import ListNotations.
Local Open Scope list_scope.

(** ** White space *)
Lemma white_iff : forall c, white c = true <-> In c (map ascii_of_nat [32; 9; 13; 10]).
Proof.
  intros c. unfold white, newline. rewrite !orb_true_iff, !Ascii.eqb_eq. cbn [map In]. change (ascii_of_nat 32) with " "%char. split; [intros [[[H|H]|H]|H]|intros [H|[H|[H|[H|[]]]]]]; subst; auto 6.
Qed.
Lemma skip_sound : forall n t, length t <= n ->
  (exists w, ws w /\ t = w ++ skip None t) /\
  (forall s, skip (Some s) t = s \/ exists l w, ~ In newline l /\ ws w /\ t = l ++ newline :: w ++ skip (Some s) t).
Proof.
  induction n as [|n IH]; intros t L.
  - destruct t; cbn in L; [|lia]. split; [exists []; split; [constructor|reflexivity]|]. intros s. left. reflexivity.
  - destruct t as [|c r]; [split; [exists []; split; [constructor|reflexivity]|]; intros s; left; reflexivity|]. cbn [length] in L. split.
    + cbn [skip]. destruct (white c) eqn:W.
      * destruct (IH r ltac:(lia)) as [(w & V & E) _]. exists (c :: w). split; [constructor; auto; apply white_iff; auto|]. cbn [app]. f_equal. exact E.
      * assert (T : exists w, ws w /\ c :: r = w ++ c :: r) by (exists []; split; [constructor|reflexivity]).
        destruct (Ascii.eqb c slash) eqn:C; [|exact T]. destruct r as [|c' r']; [exact T|].
        destruct (Ascii.eqb c' slash) eqn:C'; [|exact T]. cbn [length] in L.
        destruct (IH r' ltac:(lia)) as [_ H]. destruct (H (c :: c' :: r')) as [E|(l & w & NI & V & E)]; [rewrite E; exact T|].
        apply Ascii.eqb_eq in C, C'. subst c c'. exists (chars "//" ++ l ++ newline :: w). split; [apply ws_comment; auto|].
        rewrite <- !app_assoc. cbn [app list_ascii_of_string]. f_equal. f_equal. exact E.
    + intros s. cbn [skip]. destruct (Ascii.eqb c newline) eqn:C.
      * right. apply Ascii.eqb_eq in C. subst c. destruct (IH r ltac:(lia)) as [(w & V & E) _]. exists [], w. split; [auto|]. split; auto. cbn [app]. f_equal. exact E.
      * destruct (IH r ltac:(lia)) as [_ H]. destruct (H s) as [E|(l & w & NI & V & E)]; [left; exact E|]. right. exists (c :: l), w.
        split; [|split; auto; cbn [app]; f_equal; exact E]. intros [X|X]; auto. subst c. rewrite Ascii.eqb_refl in C. discriminate.
Qed.
Lemma skip_split : forall t, exists w, ws w /\ t = w ++ skip None t.
Proof. intros t. apply (skip_sound (length t) t (le_n _)). Qed.
Definition plain (c : ascii) : bool := negb (white c) && negb (Ascii.eqb c slash).
Lemma comment_skip : forall l s r, ~ In newline l -> skip (Some s) (l ++ newline :: r) = skip None r.
Proof.
  induction l as [|c l IH]; intros s r NI; cbn [app skip]; [rewrite Ascii.eqb_refl; auto|].
  destruct (Ascii.eqb c newline) eqn:C; [apply Ascii.eqb_eq in C; subst; exfalso; apply NI; left; auto|]. apply IH. intros X. apply NI. right. auto.
Qed.
Lemma skip_plain : forall c r, plain c = true -> skip None (c :: r) = c :: r.
Proof. intros c r P. unfold plain in P. apply andb_true_iff in P. destruct P as [P Q]. cbn [skip]. destruct (white c); [discriminate|]. destruct (Ascii.eqb c slash); [discriminate|]. reflexivity. Qed.
Lemma skip_ws : forall w c r, ws w -> plain c = true -> skip None (w ++ c :: r) = c :: r.
Proof.
  intros w c r V P. induction V as [|d w D V IH|l w NI V IH].
  - apply skip_plain; auto.
  - cbn [app skip]. apply white_iff in D. rewrite D. exact IH.
  - rewrite <- !app_assoc. cbn [list_ascii_of_string app]. cbn [skip]. change (white "/") with false. change (Ascii.eqb "/" slash) with true. cbn iota.
    change (ascii_of_nat 10) with newline in *. rewrite comment_skip by auto. exact IH.
Qed.
Definition none (w : text) : bool := match w with [] => true | _ => false end.
Lemma gap_ws : forall w c r, ws w -> plain c = true -> gap (w ++ c :: r) = Some (c :: r).
Proof. intros. unfold gap. rewrite skip_ws; auto. Qed.
Lemma space_ws : forall w c r, ws w -> plain c = true -> space (w ++ c :: r) = if none w then None else Some (c :: r).
Proof.
  intros w c r V P. unfold space. rewrite skip_ws by auto. rewrite app_length. destruct w; cbn [none length plus].
  - rewrite Nat.eqb_refl. reflexivity.
  - destruct (Nat.eqb_spec (Datatypes.S (length r)) (Datatypes.S (length w + Datatypes.S (length r)))); [lia|auto].
Qed.
Lemma gap_plain : forall c r, plain c = true -> gap (c :: r) = Some (c :: r).
Proof. intros c r P. apply (gap_ws [] c r); auto. constructor. Qed.
Lemma space_plain : forall c r, plain c = true -> space (c :: r) = None.
Proof. intros c r P. apply (space_ws [] c r); auto. constructor. Qed.

(** ** What is read is a phrase *)
Lemma reads_app : forall a b u v, reads a u -> reads b v -> reads (a ++ b) (u ++ v).
Proof. induction 1; intros B; cbn [app]; rewrite <- ?app_assoc; auto; constructor; auto. Qed.
Definition sound (p : rule) (L : text -> Prop) : Prop := forall t r, p t = Some r -> exists u, L u /\ t = u ++ r.
Lemma lit_sound0 : forall x t r, lit x t = Some r -> t = chars x ++ r.
Proof.
  induction x as [|c x IH]; intros t r H; cbn [lit] in H; [injection H as ->; reflexivity|]. destruct t as [|d t]; [discriminate|].
  destruct (Ascii.eqb_spec c d); [|discriminate]. subst d. cbn. f_equal. auto.
Qed.
Lemma word_reads : forall l x, In x l -> reads [Word l] (chars x).
Proof. intros l x I. rewrite <- (app_nil_r (chars x)). constructor; auto. constructor. Qed.
Lemma lit_sound : forall l x, In x l -> sound (lit x) (reads [Word l]).
Proof. intros l x I t r H. apply lit_sound0 in H. exists (chars x). split; auto. apply word_reads; auto. Qed.
Lemma gap_sound : sound gap (reads [Gap]).
Proof.
  intros t r H. injection H as <-. destruct (skip_split t) as (w & V & E). exists w. split; auto. rewrite <- (app_nil_r w). constructor; auto. constructor.
Qed.
Lemma space_sound : sound space (reads [Space]).
Proof.
  intros t r H. unfold space in H. destruct (Nat.eqb_spec (length (skip None t)) (length t)) as [E|NE]; [discriminate|]. injection H as <-.
  destruct (skip_split t) as (w & V & E). exists w. split; auto. rewrite <- (app_nil_r w). constructor; auto; [|constructor]. intros ->. apply NE. rewrite E at 2. reflexivity.
Qed.
Lemma then_sound : forall p q a b, sound p (reads a) -> sound q (reads b) -> sound (then_ p q) (reads (a ++ b)).
Proof.
  intros p q a b P Q t r H. unfold then_ in H. destruct (p t) as [t'|] eqn:E; [|discriminate]. apply P in E. apply Q in H.
  destruct E as (u & U & ->). destruct H as (v & V & ->). exists (u ++ v). split; [apply reads_app; auto|]. apply app_assoc.
Qed.
Lemma else_sound : forall p q L, sound p L -> sound q L -> sound (else_ p q) L.
Proof. intros p q L P Q t r H. unfold else_ in H. destruct (p t) eqn:E; [injection H as <-; auto|auto]. Qed.
Lemma weaken_sound : forall p (L L' : text -> Prop), sound p L -> (forall u, L u -> L' u) -> sound p L'.
Proof. intros p L L' P I t r H. destruct (P t r H) as (u & U & E). eauto. Qed.
Definition any (l : list (list piece)) : text -> Prop := fun u => exists a, In a l /\ reads a u.
Lemma one_sound : forall p a l, In a l -> sound p (reads a) -> sound p (any l).
Proof. intros p a l I P. apply (weaken_sound _ _ _ P). intros u U. exists a. auto. Qed.
Lemma future_sound : sound FUTURE (reads future).
Proof. unfold FUTURE, future. repeat apply else_sound; apply lit_sound; cbn; auto. Qed.
Lemma lit1_sound : forall x, sound (lit x) (reads [w x]).
Proof. intros x. apply lit_sound. left. auto. Qed.
Lemma both_sound : forall p q a b, sound p (reads a) -> sound q (reads b) -> sound (both p q) (any [conj a b; conj b a]).
Proof.
  assert (G : forall p q a b, sound p (reads a) -> sound q (reads b) -> sound (p >> ANDPOS >> q) (reads (conj a b))).
  { intros p q a b P Q. unfold conj. rewrite app_assoc. repeat apply then_sound; auto. unfold ANDPOS. change [Gap; w "&"; Gap] with (([Gap] ++ [w "&"]) ++ [Gap]).
    repeat apply then_sound; auto using gap_sound, lit1_sound. }
  intros p q a b P Q. unfold both. apply else_sound; eapply one_sound; [left; reflexivity|apply G; auto|right; left; reflexivity|apply G; auto].
Qed.
Lemma puppet_sound : forall p l, sound p (any l) ->
  sound (mod_puppet p) (any (map (fun a => in_parens a ++ [Gap; w "%"; Gap; Word ["puppet"; "superposed"]%string]) l)).
Proof.
  intros p l P t r H. unfold mod_puppet in H. unfold then_ in H.
  destruct (lit "(" t) as [t1|] eqn:E1; [|discriminate]. destruct (gap t1) as [t2|] eqn:E2; [|discriminate]. destruct (p t2) as [t3|] eqn:E3; [|discriminate].
  destruct (gap t3) as [t4|] eqn:E4; [|discriminate]. destruct (lit ")" t4) as [t5|] eqn:E5; [|discriminate]. destruct (gap t5) as [t6|] eqn:E6; [|discriminate].
  apply (lit1_sound "(") in E1. apply gap_sound in E2, E4, E6. apply P in E3. apply (lit1_sound ")") in E5.
  assert (M : sound MOD_PUPPET (reads (([w "%"] ++ [Gap]) ++ [Word ["puppet"; "superposed"]%string]))).
  { unfold MOD_PUPPET. repeat apply then_sound; auto using gap_sound, lit1_sound. unfold PUPPET. apply else_sound; apply lit_sound; cbn; auto. }
  apply M in H. destruct E1 as (u1 & U1 & ->), E2 as (u2 & U2 & ->), E3 as (u3 & (a & I & U3) & ->), E4 as (u4 & U4 & ->), E5 as (u5 & U5 & ->), E6 as (u6 & U6 & ->), H as (u7 & U7 & ->).
  exists ((((u1 ++ u2) ++ u3) ++ u4 ++ u5) ++ u6 ++ u7). split; [|rewrite !app_assoc; reflexivity]. eexists. split; [apply in_map_iff; exists a; split; [reflexivity|auto]|].
  apply reads_app; [|exact (reads_app [Gap] _ _ _ U6 U7)]. unfold in_parens. rewrite app_assoc. apply reads_app; [|exact (reads_app [Gap] _ _ _ U4 U5)].
  apply reads_app; auto. exact (reads_app [w "("] _ _ _ U1 U2).
Qed.
Lemma active_sound : sound ACTIVE_SHADOW (reads (goal FutureAndActiveShadow)).
Proof. unfold ACTIVE_SHADOW. change (goal FutureAndActiveShadow) with (([w "active"] ++ [Space]) ++ [w "shadow"]). repeat apply then_sound; auto using space_sound; apply lit1_sound. Qed.
Lemma fut_sound : forall p a, sound p (reads a) -> sound (FUTURE >> space >> p) (reads (future ++ [Space] ++ a)).
Proof. intros p a P. rewrite app_assoc. repeat apply then_sound; auto using space_sound, future_sound. Qed.
Lemma modes_sound : Forall (fun x => sound (snd x) (any (phrases (fst x))) /\ in_files (fst x)) (firstn 10 legit_modes).
Proof.
  cbn [firstn legit_modes].
  repeat (match goal with |- Forall _ (_ :: _) => constructor; [split; [cbn [fst snd phrases]|unfold in_files; cbn [fst snd]; (left; reflexivity) || (right; discriminate)] |] | |- Forall _ [] => constructor end);
    try (apply puppet_sound); apply both_sound; try apply future_sound; try (apply fut_sound); try apply active_sound; apply lit1_sound.
Qed.
Lemma last_line : forall t, choose legit_modes t = choose (firstn 10 legit_modes) t.
Proof.
  intros t. unfold legit_modes. cbn [firstn choose]. repeat (match goal with |- context [match ?p t with _ => _ end] => destruct (p t) eqn:?E; [reflexivity|] end). reflexivity.
Qed.
Lemma choose_in : forall l t m r, choose l t = Some (m, r) -> exists p, In (m, p) l /\ p t = Some r.
Proof.
  induction l as [|[m' p] l IH]; intros t m r H; cbn [choose] in H; [discriminate|]. destruct (p t) eqn:E.
  - injection H as <- <-. exists p. cbn. auto.
  - destruct (IH t m r H) as (q & I & Q). exists q. cbn. auto.
Qed.
Lemma head_sound : forall t m r, legit_head t = Some (m, r) -> exists u, spells m u /\ t = u ++ r.
Proof.
  intros t m r H. unfold legit_head, legit_head_of in H. destruct ((lit "(" >> gap) t) as [t1|] eqn:E1; [|discriminate]. rewrite last_line in H.
  destruct (choose (firstn 10 legit_modes) t1) as [[m' t2]|] eqn:E2; [|discriminate]. destruct ((gap >> lit ")") t2) as [t3|] eqn:E3; [|discriminate]. injection H as <- <-.
  apply choose_in in E2. destruct E2 as (p & I & E2). pose proof modes_sound as M. rewrite Forall_forall in M. destruct (M _ I) as [M1 M2]. cbn [fst snd] in *.
  apply M1 in E2. destruct E2 as (u2 & (a & A & U2) & ->).
  assert (S1 : sound (lit "(" >> gap) (reads ([w "("] ++ [Gap]))) by (apply then_sound; auto using gap_sound, lit1_sound).
  assert (S2 : sound (gap >> lit ")") (reads ([Gap] ++ [w ")"]))) by (apply then_sound; auto using gap_sound, lit1_sound).
  apply S1 in E1. apply S2 in E3. destruct E1 as (u1 & U1 & ->), E3 as (u3 & U3 & ->). exists (u1 ++ u2 ++ u3). split; [|rewrite <- !app_assoc; reflexivity].
  split; auto. exists a. split; auto. unfold in_parens. apply reads_app; auto. apply reads_app; auto.
Qed.
