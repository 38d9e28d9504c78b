(** C98: the style of an invariant is read, written and given as an option with one meaning.
    Statements use StyleSpec; proofs are in StyleProofs, StyleProofs2 and StyleProofs3. *)
From Coq Require Import String List Arith Bool Ascii Lia.
From Verif Require Import DeclModel StyleModel StyleSpec StyleProofs StyleProofs2 StyleProofs3.
Import ListNotations.
Local Open Scope list_scope.

(** A text is read as a style if and only if it starts with one way to write this style. *)
Theorem C98_read : forall t m r, legit_head t = Some (m, r) <-> exists u, spells m u /\ t = u ++ r.
Proof.
  intros t m r. split; [apply head_sound|]. intros (u & U & ->). apply head_complete; auto.
Qed.
Print Assumptions C98_read.

(** No text stands for two styles. *)
Theorem C98_one_meaning : forall m m' u, spells m u -> spells m' u -> m = m'.
Proof. intros m m' u A B. apply (head_complete _ _ []) in A, B. rewrite A in B. injection B as ->. reflexivity. Qed.
Print Assumptions C98_one_meaning.

(** A style that a file can have is written such that it is read as the same style. *)
Theorem C98_written : forall m r, in_files m -> legit_head (style_text m ++ r) = Some (m, r).
Proof.
  intros m r F. apply head_complete. split; auto.
  assert (B : ws [" "%char]) by (apply ws_char; [left; reflexivity|constructor]). assert (Z : ws []) by constructor.
  assert (NB : [" "%char] <> []) by discriminate.
  assert (WD : forall x l ps u t, In x l -> t = chars x ++ u -> reads ps u -> reads (Word l :: ps) t) by (intros x l ps u t I -> R; apply reads_word; auto).
  assert (GP : forall v ps u t, ws v -> t = v ++ u -> reads ps u -> reads (Gap :: ps) t) by (intros v ps u t W -> R; apply reads_gap; auto).
  assert (SP : forall v ps u t, ws v -> v <> [] -> t = v ++ u -> reads ps u -> reads (Space :: ps) t) by (intros v ps u t W N -> R; apply reads_space; auto).
  destruct m as [st sc]. destruct sc; destruct st; try (exfalso; destruct F as [F|F]; [discriminate F|apply F; reflexivity]);
    (eexists; split; [left; reflexivity|]); cbn [in_parens conj future goal app fst snd phrases along map]; unfold StyleSpec.w;
    repeat match goal with
    | |- reads [] _ => constructor
    | |- reads (Word (?x :: _) :: _) _ => eapply (WD x); [left; reflexivity|reflexivity|]
    | |- reads (Space :: _) _ => eapply (SP [" "%char]); [exact B|exact NB|reflexivity|]
    | |- reads (Gap :: _) (" "%char :: _) => eapply (GP [" "%char]); [exact B|reflexivity|]
    | |- reads (Gap :: _) _ => eapply (GP []); [exact Z|reflexivity|]
    end.
Qed.
Print Assumptions C98_written.

(** Blanks do not count in the argument of -style, and everything else does. *)
Theorem C98_blanks : forall a b, eqck_skipws a b = true <-> without_blanks a = without_blanks b.
Proof. intros a b. apply (eqck_iff _ a b (le_n _)). Qed.
Print Assumptions C98_blanks.

(** A style that may be written in a file has the same meaning as an option, if it is accepted there. *)
Theorem C98_option : forall a o m, parse_style a = Some o -> spells m a -> o = SetMode m.
Proof. exact option_same. Qed.
Print Assumptions C98_option.

(** The styles that the option sets, and the texts that set them: what is written for the style, up to blanks. *)
Theorem C98_option_exact : forall a m, parse_style a = Some (SetMode m) <->
  without_blanks a = without_blanks (style_text m) /\
  (snd m = DirectInvariant \/ snd m = ShadowInvariant /\ fst m <> FutureAndActiveShadow \/ m = (FutureAndShadow, FutureInvariant)).
Proof.
  intros a m. rewrite parse_look. split.
  - intros H. unfold look in H. destruct (find _ style_args) as [x|] eqn:E; [|discriminate]. cbn [option_map] in H. injection H as H.
    pose proof (find_some _ _ E) as [I Q]. unfold same_text in Q. destruct (text_eq_dec (without_blanks a) _) as [Q'|]; [|discriminate]. clear Q. rewrite Q' in E |- *. clear a Q'.
    cbn [style_args In] in I. repeat (destruct I as [<-|I]; [cbn [snd] in H; try discriminate H; try (injection H as <-; split; [reflexivity|cbn [fst snd]; first [left; reflexivity|right; right; reflexivity|right; left; split; [reflexivity|discriminate]]]) |]); try contradiction.
    all: vm_compute in E; discriminate E.
  - intros [-> H]. destruct m as [st sc]. destruct sc; destruct st; try (vm_compute; reflexivity); exfalso; destruct H as [H|[[H H']|H]]; try discriminate H; apply H'; reflexivity.
Qed.
Print Assumptions C98_option_exact.

(** ** What is not true *)
(** Not every style of the option can be read back from the file that is written then. *)
Theorem C98_written_refuted : exists a m, parse_style a = Some (SetMode m) /\ forall r, legit_head (style_text m ++ r) = None.
Proof.
  exists (chars "((future & closed) % puppet)"), (FutureAndClosed, ShadowInvariant). split; [vm_compute; reflexivity|].
  intros r. vm_compute. reflexivity.
Qed.
Print Assumptions C98_written_refuted.

(** Not every style of a file can be given as an option, however it is spelled. *)
Theorem C98_option_refuted : exists m, in_files m /\ (exists u, spells m u) /\ forall a, parse_style a <> Some (SetMode m).
Proof.
  exists (FutureAndSilent, FutureInvariant). split; [right; discriminate|]. split.
  - exists (style_text (FutureAndSilent, FutureInvariant)).
    destruct (proj1 (C98_read (style_text (FutureAndSilent, FutureInvariant)) (FutureAndSilent, FutureInvariant) [])) as (u & U & E).
    + rewrite <- (app_nil_r (style_text _)). apply C98_written. right. discriminate.
    + rewrite app_nil_r in E. rewrite E. exact U.
  - intros a H. apply C98_option_exact in H. destruct H as [_ [H|[[H _]|H]]]; discriminate.
Qed.
Print Assumptions C98_option_refuted.

(** Another order of the words is a style in a file, but not as an option. *)
Theorem C98_order_refuted : exists a m, spells m a /\ parse_style a = None.
Proof.
  exists (chars "(silent & future)"), (FutureAndSilent, DirectInvariant). split; [|vm_compute; reflexivity].
  destruct (proj1 (C98_read (chars "(silent & future)") (FutureAndSilent, DirectInvariant) [])) as (u & U & E); [vm_compute; reflexivity|].
  rewrite app_nil_r in E. rewrite E. exact U.
Qed.
Print Assumptions C98_order_refuted.

(** The last alternative of LegitMode (prot-xfile.leg:278) never decides. *)
Theorem C98_last_line : forall t, legit_head t = legit_head_of (firstn 10 legit_modes) t.
Proof.
  intros t. unfold legit_head, legit_head_of. destruct ((lit "(" >> gap) t); auto. rewrite last_line. reflexivity.
Qed.
Print Assumptions C98_last_line.

(** ** An example *)
Example C98_example :
  legit_head (chars "( eventually//soon" ++ newline :: chars "&active  shadow )(x[0]==1);") = Some ((FutureAndActiveShadow, DirectInvariant), chars "(x[0]==1);")
  /\ legit_head (chars "((<>&shadow)%superposed)") = Some ((FutureAndShadow, ShadowInvariant), [])
  /\ legit_head (chars "(future & silent") = None
  /\ parse_style (chars "((future&silent)%puppet) ") = Some (SetMode (FutureAndSilent, ShadowInvariant))
  /\ parse_style (chars "future silent") = Some (SetBehav FutureSilent)
  /\ in_files (FutureAndActiveShadow, FutureInvariant).
Proof. repeat split; try (vm_compute; reflexivity). right. discriminate. Qed.
