(** The style of an invariant: the option of the command line. *)
From Coq Require Import String List Arith Bool Ascii Lia.
From Verif Require Import DeclModel StyleModel StyleSpec StyleProofs StyleProofs2.
Import ListNotations.
Local Open Scope list_scope.

Lemma eqck_b : forall a d b, (match a with c :: _ => Ascii.eqb c " "%char = false | [] => True end) -> d = " "%char -> eqck_skipws a (d :: b) = eqck_skipws a b.
Proof. intros [|c a] d b H ->; cbn; [reflexivity|]. rewrite H. reflexivity. Qed.
Lemma eqck_iff : forall n a b, length a + length b <= n -> (eqck_skipws a b = true <-> without_blanks a = without_blanks b).
Proof.
  unfold without_blanks. induction n as [|n IH]; intros a b L.
  - destruct a, b; cbn in L; try lia. cbn. tauto.
  - destruct a as [|c a]; destruct b as [|d b]; cbn [length] in L.
    + cbn. tauto.
    + cbn [filter]. destruct (Ascii.eqb d " ") eqn:D; cbn [negb].
      * apply Ascii.eqb_eq in D. rewrite eqck_b by auto. apply (IH [] b). cbn. lia.
      * cbn [eqck_skipws filter]. rewrite D. split; discriminate.
    + cbn [eqck_skipws]. cbn [filter]. destruct (Ascii.eqb c " ") eqn:C; cbn [negb].
      * apply (IH a []). cbn. lia.
      * cbn [filter]. split; discriminate.
    + destruct (Ascii.eqb c " ") eqn:C.
      * cbn [eqck_skipws]. rewrite C. rewrite (IH a (d :: b)) by (cbn; lia). cbn [filter]. rewrite C. cbn [negb]. tauto.
      * destruct (Ascii.eqb d " ") eqn:D.
        -- pose proof D as D'. apply Ascii.eqb_eq in D. rewrite eqck_b by auto. rewrite (IH (c :: a) b) by (cbn; lia). cbn [filter]. rewrite D'. cbn [negb]. tauto.
        -- cbn [eqck_skipws]. rewrite C, D. cbn [filter]. rewrite C, D. cbn [negb]. destruct (Ascii.eqb_spec c d) as [E|NE].
           ++ subst d. rewrite (IH a b) by lia. split; [intros ->; auto|intros H; injection H; auto].
           ++ split; [discriminate|]. intros H. injection H as H1 _. contradiction.
Qed.
Definition text_eq_dec : forall a b : text, {a = b} + {a <> b} := list_eq_dec ascii_dec.
Definition same_text (a b : text) : bool := if text_eq_dec a b then true else false.
Definition look (v : text) : option style_opt := option_map snd (find (fun x => same_text v (without_blanks (chars (fst x)))) style_args).
Lemma find_ext : forall A (f g : A -> bool) l, (forall x, f x = g x) -> find f l = find g l.
Proof. intros A f g l H. induction l as [|x l IH]; cbn [find]; auto. rewrite H, IH. reflexivity. Qed.
Lemma parse_look : forall a, parse_style a = look (without_blanks a).
Proof.
  intros a. unfold parse_style, look. f_equal. apply find_ext. intros x. unfold same_text.
  pose proof (eqck_iff _ a (chars (fst x)) (le_n _)) as E. destruct (text_eq_dec _ _) as [H|H]; [apply E; auto|].
  destruct (eqck_skipws a (chars (fst x))); auto. exfalso. apply H, E. reflexivity.
Qed.
Definition ok_char (c : ascii) : bool := negb (white c) && negb (Ascii.eqb c slash).
Lemma look_chars : forall v o, look v = Some o -> forallb ok_char v = true.
Proof.
  intros v o H. unfold look in H. destruct (find _ style_args) as [x|] eqn:E; [|discriminate]. apply find_some in E. destruct E as [I S].
  unfold same_text in S. destruct (text_eq_dec v (without_blanks (chars (fst x)))) as [->|]; [|discriminate]. clear S H.
  assert (G : forallb (fun x => forallb ok_char (without_blanks (chars (fst x)))) style_args = true) by (vm_compute; reflexivity).
  rewrite forallb_forall in G. apply G; auto.
Qed.
Lemma ws_blank : forall w, ws w -> forallb ok_char (without_blanks w) = true -> without_blanks w = [].
Proof.
  unfold without_blanks. induction 1 as [|c w C W IH|l w NI W IH]; intros H; auto.
  - cbn [filter] in *. destruct (Ascii.eqb c " ") eqn:B; cbn [negb] in *; auto. apply white_iff in C. cbn [forallb] in H. unfold ok_char in H at 1. rewrite C in H. discriminate.
  - cbn in H. discriminate.
Qed.
Lemma blanks_app : forall a b, without_blanks (a ++ b) = without_blanks a ++ without_blanks b.
Proof. intros. apply filter_app. Qed.
(** All texts of a phrase, without white space *)
Fixpoint texts (ps : list piece) : list text :=
  match ps with
  | [] => [[]]
  | Word l :: ps' => flat_map (fun x => map (fun v => without_blanks (chars x) ++ v) (texts ps')) l
  | _ :: ps' => texts ps'
  end.
Lemma reads_texts : forall ps u, reads ps u -> forallb ok_char (without_blanks u) = true -> In (without_blanks u) (texts ps).
Proof.
  induction 1 as [|l x ps u I R IH|w ps u W R IH|w ps u W NE R IH]; intros H; [cbn; auto| | |]; rewrite blanks_app, forallb_app in *; apply andb_true_iff in H; destruct H as [H1 H2].
  - cbn [texts]. apply in_flat_map. exists x. split; auto. apply in_map_iff. eexists. split; [reflexivity|auto].
  - cbn [texts]. rewrite ws_blank by auto. apply IH; auto.
  - cbn [texts]. rewrite ws_blank by auto. apply IH; auto.
Qed.
Definition modes : list mode :=
  flat_map (fun s => map (pair s) [DirectInvariant; ShadowInvariant; FutureInvariant]) [FutureAndClosed; FutureAndSilent; FutureAndShadow; FutureAndActiveShadow].
Lemma all_modes : forall m, In m modes.
Proof. intros [[| | |] [| |]]; vm_compute; auto 15. Qed.
Definition mode_eqb (a b : mode) : bool := style_eqb (fst a) (fst b) && scope_eqb (snd a) (snd b).
Lemma mode_eqb_eq : forall a b, mode_eqb a b = true -> a = b.
Proof. intros [[| | |] [| |]] [[| | |] [| |]]; cbn; auto; discriminate. Qed.
Definition agrees : bool :=
  forallb (fun m => forallb (fun a => forallb (fun v => match look v with Some (SetMode m') => mode_eqb m' m | Some _ => false | None => true end) (texts (in_parens a))) (phrases m)) modes.
Lemma agrees_true : agrees = true.
Proof. vm_compute. reflexivity. Qed.
Lemma option_same : forall a o m, parse_style a = Some o -> spells m a -> o = SetMode m.
Proof.
  intros a o m P [_ (ph & I & R)]. rewrite parse_look in P. pose proof (look_chars _ _ P) as C. apply reads_texts in R; auto.
  pose proof agrees_true as G. unfold agrees in G. rewrite forallb_forall in G. specialize (G m (all_modes m)). rewrite forallb_forall in G. specialize (G ph I).
  rewrite forallb_forall in G. specialize (G _ R). rewrite P in G. destruct o as [m'|]; [|discriminate]. apply mode_eqb_eq in G. subst. reflexivity.
Qed.
