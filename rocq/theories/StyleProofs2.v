(** The style of an invariant: all phrases are read, and the option. *)
From Coq Require Import String List Arith Bool Ascii Lia.
From Verif Require Import DeclModel StyleModel StyleSpec StyleProofs.
Import ListNotations.
Local Open Scope list_scope.

(** ** Every phrase is read *)
Lemma reads_app_inv : forall a b t, reads (a ++ b) t -> exists u v, reads a u /\ reads b v /\ t = u ++ v.
Proof.
  induction a as [|p a IH]; intros b t H; cbn [app] in H; [exists [], t; split; [constructor|auto]|].
  inversion H; subst; match goal with X : reads (a ++ b) _ |- _ => destruct (IH _ _ X) as (u' & v' & A & B & ->) end; eexists _, v'; (split; [|split; [exact B|rewrite app_assoc; reflexivity]]); constructor; auto.
Qed.
Ltac take H := repeat match type of H with reads (_ :: _) _ => inversion H; clear H; subst; match goal with X : reads _ _ |- _ => rename X into H end | reads [] _ => inversion H; clear H; subst end.
Definition fut (x : string) : Prop := In x ["future"; "eventually"; "<>"]%string.
Lemma fut_yes : forall x r, fut x -> FUTURE (chars x ++ r) = Some r.
Proof. intros x r [<-|[<-|[<-|[]]]]; reflexivity. Qed.
Definition starts (c : ascii) (y : string) : bool := match y with String d _ => Ascii.eqb c d | EmptyString => true end.
Lemma fut_no : forall x y r, fut x -> starts "f"%char y = false -> starts "e"%char y = false -> starts "<"%char y = false -> lit y (chars x ++ r) = None.
Proof.
  intros x y r X F E L. destruct y as [|d y]; [discriminate|]. cbn [starts] in F, E, L. rewrite Ascii.eqb_sym in F, E, L.
  destruct X as [<-|[<-|[<-|[]]]]; cbn [list_ascii_of_string app lit]; rewrite ?F, ?E, ?L; reflexivity.
Qed.
Lemma no_fut : forall c r, Ascii.eqb c "f" = false -> Ascii.eqb c "e" = false -> Ascii.eqb c "<" = false -> FUTURE (c :: r) = None.
Proof. intros c r F E L. unfold FUTURE, else_. cbn [lit]. rewrite Ascii.eqb_sym, F, (Ascii.eqb_sym "e"), E, (Ascii.eqb_sym "<"), L. reflexivity. Qed.
Lemma gap_fut : forall w x r, ws w -> fut x -> gap (w ++ chars x ++ r) = Some (chars x ++ r).
Proof. intros w x r V [<-|[<-|[<-|[]]]]; cbn [list_ascii_of_string app]; apply gap_ws; auto. Qed.
Lemma space_fut : forall w x r, ws w -> fut x -> space (w ++ chars x ++ r) = if none w then None else Some (chars x ++ r).
Proof. intros w x r V [<-|[<-|[<-|[]]]]; cbn [list_ascii_of_string app]; apply space_ws; auto. Qed.
Lemma gap_fut0 : forall x r, fut x -> gap (chars x ++ r) = Some (chars x ++ r).
Proof. intros x r X. apply (gap_fut [] x r); auto. constructor. Qed.
Lemma choose_no : forall m p l t, p t = None -> choose ((m, p) :: l) t = choose l t.
Proof. intros m p l t E. cbn [choose]. rewrite E. reflexivity. Qed.
Lemma choose_yes : forall m p l t r, p t = Some r -> choose ((m, p) :: l) t = Some (m, r).
Proof. intros m p l t r E. cbn [choose]. rewrite E. reflexivity. Qed.
Definition pup (x : string) : Prop := In x ["puppet"; "superposed"]%string.
Lemma pup_yes : forall x r, pup x -> PUPPET (chars x ++ r) = Some r.
Proof. intros x r [<-|[<-|[]]]; reflexivity. Qed.
Lemma gap_pup : forall w x r, ws w -> pup x -> gap (w ++ chars x ++ r) = Some (chars x ++ r).
Proof. intros w x r V [<-|[<-|[]]]; cbn [list_ascii_of_string app]; apply gap_ws; auto. Qed.

Ltac words := repeat match goal with
  | X : In _ ["future"; "eventually"; "<>"]%string |- _ => change (fut _) in X
  | X : In ?x ["future"; "eventually"; "<>"]%string |- _ => change (fut x) in X
  | X : In ?x ["puppet"; "superposed"]%string |- _ => change (pup x) in X
  | X : In _ [_] |- _ => destruct X as [<-|X] | X : In _ [] |- _ => destruct X end.
Ltac step := first [rewrite fut_yes by assumption | rewrite fut_no by (assumption || reflexivity) | rewrite no_fut by reflexivity | rewrite gap_fut by assumption | rewrite space_fut by assumption
  | rewrite gap_fut0 by assumption | rewrite gap_pup by assumption | rewrite pup_yes by assumption
  | rewrite gap_ws by (assumption || reflexivity) | rewrite space_ws by (assumption || reflexivity) | rewrite gap_plain by reflexivity | rewrite space_plain by reflexivity].
Local Arguments lit : simpl nomatch.
Local Arguments Ascii.eqb : simpl nomatch.
Ltac ev := cbn [lit Ascii.eqb Bool.eqb andb option_map].
Ltac go := repeat (ev; first [step | match goal with |- context [if none ?x then _ else _] => is_var x; destruct x; cbn [none]; [try congruence|] end]).
Ltac open_all := unfold mod_puppet, MOD_PUPPET, FUTURE_AND_SILENT, FUTURE_AND_SHADOW, FUTURE_AND_ACTIVE_SHADOW, FUTURE_AND_CLOSED,
  both, FUTURE_SILENT, FUTURE_SHADOW, FUTURE_ACTIVE_SHADOW, ACTIVE_SHADOW, ANDPOS, SHADOW, CLOSED, SILENT; unfold then_, else_.
Ltac alternatives := repeat first [rewrite choose_no by (open_all; go; reflexivity) | erewrite choose_yes by (open_all; go; reflexivity)].
Lemma open_paren : forall t, (lit "(" >> gap) ("("%char :: t) = gap t.
Proof. reflexivity. Qed.
Lemma close_paren : forall t, (gap >> lit ")") t = match gap t with Some r => lit ")" r | None => None end.
Proof. reflexivity. Qed.
Lemma head_complete : forall m u r, spells m u -> legit_head (u ++ r) = Some (m, r).
Proof.
  intros [st sc] u r [F (a & I & R)]. unfold legit_head, legit_head_of.
  destruct sc; destruct st; cbn [phrases fst snd along goal map In] in I; (destruct I as [<-|[<-|[]]]).
  all: try (exfalso; destruct F as [F|F]; [discriminate F|apply F; reflexivity]).
  all: cbn [in_parens conj future goal app] in R.
  all: take R; words; rewrite <- ?app_assoc; cbn [app list_ascii_of_string]; rewrite <- ?app_assoc; cbn [app]; rewrite open_paren; step; cbn iota; unfold legit_modes.
  all: alternatives; cbn iota; rewrite close_paren; step; reflexivity.
Qed.
