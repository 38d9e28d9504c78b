(** What the declarations of a process say it accesses. *)
From Coq Require Import String List Arith Bool ZArith.
From Verif Require Import FmlaModel FmlaSpec IntModel ExprModel ExprSpec ActModel NetModel CmdModel CmdSpec ParseModel ParseSpec AccessModel.
Import ListNotations.
Local Open Scope list_scope.

Section Meaning.
Variable G : scope.
(** The indices [b], and the names of a tuple at the values that the tuple has in [b]. *)
Definition with_links (b : imap) (names : list string) (tuple : list sexp) (s : list nat) : imap :=
  flat_map (fun nv => match value_of G b (snd nv) s with Some z => [(fst nv, z)] | None => [] end) (combine names tuple) ++ b.
(** Type of access, array and variable, in order. *)
Definition accessed (b : imap) (s : list nat) (d : pdecl) : list (atype * string * option nat) :=
  match d with
  | PAccess (t, x, i) => [(t, x, cell G b x i s)]
  | PLinks names vals vs =>
      flat_map (fun r : vref => let '(t, x, i) := r in
        map (fun tuple => (t, x, cell G (with_links b names tuple s) x i s)) vals) vs
  end.
End Meaning.

(** Names, numbers, parentheses, operators, members of arrays. *)
Fixpoint arith (e : sexp) : Prop :=
  match e with
  | SName _ | SNat _ => True
  | SInt a | SNeg a | SAref _ a => arith a
  | SBin _ a b => arith a /\ arith b
  | _ => False
  end.
(** The names that stand for integers. *)
Fixpoint names_in (e : sexp) : list string :=
  match e with
  | SName x => [x]
  | SInt a | SNeg a | SAref _ a => names_in a
  | SBin _ a b => names_in a ++ names_in b
  | _ => []
  end.
(** The declarations of a process with the index [idx]: the names of a block are new and different, the tuples have their
    length and do not mention them. *)
Definition plain_decl (idx : string) (d : pdecl) : Prop :=
  match d with
  | PAccess (_, _, i) => arith i
  | PLinks names vals vs =>
      NoDup names /\ ~ In idx names /\
      Forall (fun tuple => length tuple = length names /\ Forall (fun v => arith v /\ forall x, In x (names_in v) -> ~ In x names) tuple) vals /\
      Forall (fun r : vref => arith (snd r)) vs
  end.
(** Tight enough to be put in place of a name without parentheses. *)
Definition tight (e : sexp) : Prop :=
  match e with
  | SName _ | SNat _ | SInt _ | SAref _ _ | SBin MaxOp _ _ | SBin MinOp _ _ => True
  | _ => False
  end.
Definition is_name (e : sexp) : bool := match e with SName _ => true | _ => false end.
(** The values of every block are tight, or its indices are names. *)
Definition tight_decl (d : pdecl) : Prop :=
  match d with
  | PAccess _ => True
  | PLinks _ vals vs => Forall (Forall tight) vals \/ Forall (fun r : vref => is_name (snd r) = true) vs
  end.
Definition apart_decl (d : pdecl) : Prop :=
  match d with
  | PAccess r => iffs_apart (snd r)
  | PLinks _ vals vs => Forall (Forall iffs_apart) vals /\ Forall (fun r : vref => iffs_apart (snd r)) vs
  end.
(** The kind of process, as far as its actions are concerned (ActModel.v). *)
Definition kind_decl (ds : list nat) (roles : list role) (F : file) (d : pdecl) : decl :=
  match d with
  | PAccess r => Plain (array_access ds roles F (fst (fst r)) (snd (fst r)))
  | PLinks _ vals vs => Symmetric (length vals) (map (fun r => array_access ds roles F (fst (fst r)) (snd (fst r))) vs)
  end.
