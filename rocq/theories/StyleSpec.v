(** How the style of an invariant may be written. *)
From Coq Require Import String List Bool Ascii.
From Verif Require Import DeclModel.
Import ListNotations.
Local Open Scope list_scope.

Notation chars := list_ascii_of_string.
(** White space: blanks, tabs, returns, ends of lines, and comments up to the end of the line. *)
Inductive ws : list ascii -> Prop :=
| ws_none : ws []
| ws_char : forall c w, In c (map ascii_of_nat [32; 9; 13; 10]) -> ws w -> ws (c :: w)
| ws_comment : forall l w, ~ In (ascii_of_nat 10) l -> ws w -> ws (chars "//" ++ l ++ ascii_of_nat 10 :: w).
(** A phrase: words, each with its synonyms, and places for white space. *)
Inductive piece := Word (synonyms : list string) | Gap | Space.
Inductive reads : list piece -> list ascii -> Prop :=
| reads_end : reads [] []
| reads_word : forall l x ps u, In x l -> reads ps u -> reads (Word l :: ps) (chars x ++ u)
| reads_gap : forall w ps u, ws w -> reads ps u -> reads (Gap :: ps) (w ++ u)
| reads_space : forall w ps u, ws w -> w <> [] -> reads ps u -> reads (Space :: ps) (w ++ u).

Definition w (x : string) : piece := Word [x].
Definition future : list piece := [Word ["future"; "eventually"; "<>"]]%string.
Definition goal (s : invariant_style) : list piece :=
  match s with
  | FutureAndClosed => [w "closed"]
  | FutureAndSilent => [w "silent"]
  | FutureAndShadow => [w "shadow"]
  | FutureAndActiveShadow => [w "active"; Space; w "shadow"]
  end.
Definition conj (a b : list piece) : list piece := a ++ [Gap; w "&"; Gap] ++ b.
(** "future" and [g], in either order *)
Definition along (g : list piece) : list (list piece) := [conj future g; conj g future].
Definition in_parens (a : list piece) : list piece := [w "("; Gap] ++ a ++ [Gap; w ")"].
(** Styles that a file can have. *)
Definition in_files (m : mode) : Prop := snd m = DirectInvariant \/ fst m <> FutureAndClosed.
Definition phrases (m : mode) : list (list piece) :=
  match snd m with
  | DirectInvariant => along (goal (fst m))
  | FutureInvariant => along (future ++ [Space] ++ goal (fst m))
  | ShadowInvariant => map (fun a => in_parens a ++ [Gap; w "%"; Gap; Word ["puppet"; "superposed"]%string]) (along (goal (fst m)))
  end.
Definition spells (m : mode) (t : list ascii) : Prop :=
  in_files m /\ exists a, In a (phrases m) /\ reads (in_parens a) t.

Definition without_blanks (t : list ascii) : list ascii := filter (fun c => negb (Ascii.eqb c " "%char)) t.
