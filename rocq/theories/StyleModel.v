(** The style of an invariant: how it is read, written and given on the command line.

    Models
      - /repo/src/prot-xfile.leg:267-283   LegitMode, and the start of LegitStmt,
      - /repo/src/prot-xfile.leg:598-686   the words of a style,
      - /repo/src/prot-xfile.leg:707-712   WS,
      - /repo/src/prot-ofile.cc:286-329    string_of_invariant_style,
      - /repo/src/opt.cc:48-130            eqck_skipws, parse_style.
    A text is the list of its characters; that of a C string has no zero. *)
From Coq Require Import String List Arith Bool Ascii.
From Verif Require Import DeclModel.
Import ListNotations.
Local Open Scope list_scope.

Definition text : Type := list ascii.
Definition newline : ascii := ascii_of_nat 10.
Definition slash : ascii := "/"%char.
(** prot-xfile.leg:709 *)
Definition white (c : ascii) : bool :=
  Ascii.eqb c " "%char || Ascii.eqb c (ascii_of_nat 9) || Ascii.eqb c (ascii_of_nat 13) || Ascii.eqb c newline.
(** prot-xfile.leg:707-712: WS?, as much as possible.  Inside of a comment, [from] is the text that starts with it: there is
    no comment if the line does not end. *)
Fixpoint skip (from : option text) (t : text) : text :=
  match from with
  | None =>
    match t with
    | c :: r =>
      if white c then skip None r
      else if Ascii.eqb c slash then
        match r with
        | c' :: r' => if Ascii.eqb c' slash then skip (Some t) r' else t
        | [] => t
        end
      else t
    | [] => []
    end
  | Some s => match t with [] => s | c :: r => if Ascii.eqb c newline then skip None r else skip (Some s) r end
  end.
(** A rule of the grammar takes the start of a text and gives the rest. *)
Definition rule : Type := text -> option text.
Definition gap : rule := fun t => Some (skip None t).
(** WS *)
Definition space : rule := fun t => if length (skip None t) =? length t then None else Some (skip None t).
Fixpoint lit (s : string) (t : text) : option text :=
  match s, t with
  | EmptyString, _ => Some t
  | String c s', c' :: t' => if Ascii.eqb c c' then lit s' t' else None
  | String _ _, [] => None
  end.
Definition then_ (p q : rule) : rule := fun t => match p t with Some r => q r | None => None end.
Definition else_ (p q : rule) : rule := fun t => match p t with Some r => Some r | None => q t end.
Notation "p >> q" := (then_ p q) (at level 40, left associativity).
Notation "p // q" := (else_ p q) (at level 50, left associativity).

(** prot-xfile.leg:598-611 *)
Definition ANDPOS : rule := gap >> lit "&" >> gap.
Definition FUTURE : rule := lit "future" // lit "eventually" // lit "<>".
Definition SHADOW : rule := lit "shadow".
Definition PUPPET : rule := lit "puppet" // lit "superposed".
Definition CLOSED : rule := lit "closed".
Definition SILENT : rule := lit "silent".
Definition ACTIVE_SHADOW : rule := lit "active" >> space >> SHADOW.
(** prot-xfile.leg:617-631, 663-666 *)
Definition both (p q : rule) : rule := (p >> ANDPOS >> q) // (q >> ANDPOS >> p).
Definition FUTURE_AND_SILENT : rule := both FUTURE SILENT.
Definition FUTURE_AND_SHADOW : rule := both FUTURE SHADOW.
Definition FUTURE_AND_ACTIVE_SHADOW : rule := both FUTURE ACTIVE_SHADOW.
Definition FUTURE_AND_CLOSED : rule := both FUTURE CLOSED.
(** prot-xfile.leg:632-646 *)
Definition MOD_PUPPET : rule := lit "%" >> gap >> PUPPET.
Definition mod_puppet (p : rule) : rule := lit "(" >> gap >> p >> gap >> lit ")" >> gap >> MOD_PUPPET.
(** prot-xfile.leg:648-661, 675-686 *)
Definition FUTURE_SILENT : rule := FUTURE >> space >> SILENT.
Definition FUTURE_SHADOW : rule := FUTURE >> space >> SHADOW.
Definition FUTURE_ACTIVE_SHADOW : rule := FUTURE >> space >> ACTIVE_SHADOW.
(** prot-xfile.leg:268-278, in this order *)
Definition legit_modes : list (mode * rule) :=
  [((FutureAndSilent, DirectInvariant), FUTURE_AND_SILENT);
   ((FutureAndShadow, DirectInvariant), FUTURE_AND_SHADOW);
   ((FutureAndClosed, DirectInvariant), FUTURE_AND_CLOSED);
   ((FutureAndActiveShadow, DirectInvariant), FUTURE_AND_ACTIVE_SHADOW);
   ((FutureAndSilent, ShadowInvariant), mod_puppet FUTURE_AND_SILENT);
   ((FutureAndShadow, ShadowInvariant), mod_puppet FUTURE_AND_SHADOW);
   ((FutureAndActiveShadow, ShadowInvariant), mod_puppet FUTURE_AND_ACTIVE_SHADOW);
   ((FutureAndSilent, FutureInvariant), both FUTURE FUTURE_SILENT);
   ((FutureAndShadow, FutureInvariant), both FUTURE FUTURE_SHADOW);
   ((FutureAndActiveShadow, FutureInvariant), both FUTURE FUTURE_ACTIVE_SHADOW);
   ((FutureAndSilent, FutureInvariant), FUTURE_AND_SILENT)].
(** An ordered choice: the first rule that succeeds decides. *)
Fixpoint choose (l : list (mode * rule)) (t : text) : option (mode * text) :=
  match l with
  | [] => None
  | (m, p) :: l' => match p t with Some r => Some (m, r) | None => choose l' t end
  end.
(** prot-xfile.leg:283: '(' WS? LegitMode WS? ')' *)
Definition legit_head_of (l : list (mode * rule)) (t : text) : option (mode * text) :=
  match (lit "(" >> gap) t with
  | Some t1 =>
    match choose l t1 with
    | Some (m, t2) => option_map (fun r => (m, r)) ((gap >> lit ")") t2)
    | None => None
    end
  | None => None
  end.
Definition legit_head : text -> option (mode * text) := legit_head_of legit_modes.

(** prot-ofile.cc:286-329 *)
Definition style_word (s : invariant_style) : string :=
  match s with FutureAndClosed => "closed" | FutureAndSilent => "silent" | FutureAndShadow => "shadow" | FutureAndActiveShadow => "active shadow" end.
Definition style_text (m : mode) : text :=
  let '(s, sfx, pfx) :=
    match snd m with
    | DirectInvariant => ("", "", "")
    | ShadowInvariant => ("(", " % puppet)", "")
    | FutureInvariant => ("", "", "future ")
    end%string in
  list_ascii_of_string (s ++ "(future & " ++ pfx ++ style_word (fst m) ++ ")" ++ sfx).

(** opt.cc:48-75 *)
Fixpoint eqck_skipws (a : text) : text -> bool :=
  fix on_b (b : text) : bool :=
    match a with
    | c :: a' =>
      if Ascii.eqb c " "%char then eqck_skipws a' b
      else match b with
           | d :: b' => if Ascii.eqb d " "%char then on_b b' else if Ascii.eqb c d then eqck_skipws a' b' else false
           | [] => false
           end
    | [] => match b with d :: b' => if Ascii.eqb d " "%char then on_b b' else false | [] => true end
    end.
(** xnspec.hh:57-65 *)
Inductive invariant_behav := FutureSilent | FutureShadow | FutureActiveShadow.
Inductive style_opt := SetMode (m : mode) | SetBehav (b : invariant_behav).
(** opt.cc:82-126, in this order *)
Definition style_args : list (string * style_opt) :=
  [("(future & closed)", SetMode (FutureAndClosed, DirectInvariant));
   ("(future & silent)", SetMode (FutureAndSilent, DirectInvariant));
   ("(future & shadow)", SetMode (FutureAndShadow, DirectInvariant));
   ("(future & active shadow)", SetMode (FutureAndActiveShadow, DirectInvariant));
   ("((future & closed) % puppet)", SetMode (FutureAndClosed, ShadowInvariant));
   ("((future & silent) % puppet)", SetMode (FutureAndSilent, ShadowInvariant));
   ("((future & shadow) % puppet)", SetMode (FutureAndShadow, ShadowInvariant));
   ("(future & silent)", SetMode (FutureAndShadow, FutureInvariant));
   ("(future & future shadow)", SetMode (FutureAndShadow, FutureInvariant));
   ("future silent", SetBehav FutureSilent);
   ("future shadow", SetBehav FutureShadow);
   ("future active shadow", SetBehav FutureActiveShadow)]%string.
Definition parse_style (arg : text) : option style_opt :=
  option_map snd (find (fun x => eqck_skipws arg (list_ascii_of_string (fst x))) style_args).
