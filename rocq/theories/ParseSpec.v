(** The trees whose text reads back: an equality of predicates, which is written "a <=> b", must not
    stand beside an operator that binds tighter than "<=>". *)
From Coq Require Import String List Arith Bool ZArith.
From Verif Require Import ExprModel CmdModel.
Import ListNotations.
Local Open Scope list_scope.

Definition is_iff (e : sexp) : bool := match e with SIff _ _ => true | _ => false end.
(** No "<=>" is an operand of "&&", "||" or "==>", nor the right operand of "<=>", without parentheses. *)
Fixpoint iffs_apart (e : sexp) : Prop :=
  match e with
  | SName _ | SNat _ => True
  | SBool a | SInt a | SNot a | SNeg a | SAref _ a => iffs_apart a
  | SAnd a b | SOr a b | SImp a b => is_iff a = false /\ is_iff b = false /\ iffs_apart a /\ iffs_apart b
  | SIff a b => is_iff b = false /\ iffs_apart a /\ iffs_apart b
  | SXor a b | SCmp _ a b | SBin _ a b => iffs_apart a /\ iffs_apart b
  | SIif c a b => iffs_apart c /\ iffs_apart a /\ iffs_apart b
  | SQuant _ _ n body => iffs_apart n /\ iffs_apart body
  end.
(** An operator that binds weaker than "&&" at the top. *)
Definition weaker_than_and (e : sexp) : bool :=
  match e with SOr _ _ | SImp _ _ | SIff _ _ | SIif _ _ _ => true | _ => false end.
Definition apart_assign (a : assignment) : Prop :=
  match a with ASet _ i v => iffs_apart i /\ match v with Some e => iffs_apart e | None => True end | _ => True end.
Definition apart_action (a : action) : Prop := iffs_apart (a_guard a) /\ Forall apart_assign (a_assigns a).

(** Statements that are all to hold, in their order. *)
Fixpoint together (l : list (option bool)) : option bool :=
  match l with
  | [] => Some true
  | Some true :: l' => together l'
  | o :: _ => o
  end.

(** int_ck: the tree is known to be an integer. *)
Fixpoint isint (e : sexp) : bool :=
  match e with
  | SName _ | SNat _ | SInt _ | SAref _ _ | SBin _ _ _ | SIif _ _ _ => true
  | SNeg a | SNot a => isint a
  | _ => false
  end.
(** Trees of constants: names, numbers, operators. *)
Fixpoint constant (e : sexp) : Prop :=
  match e with
  | SName _ | SNat _ => True
  | SInt a | SNeg a => constant a
  | SBin _ a b => constant a /\ constant b
  | _ => False
  end.
(** Integers and predicates are where they belong: "(bool)" and "(int)" say what they hold, equality
    is of integers and "xor" of predicates (on the left, where a lone name counts as an integer), the branches of "if" are integers,
    bounds are constants. *)
Fixpoint kinded (e : sexp) : Prop :=
  match e with
  | SName _ | SNat _ => True
  | SBool a => isint a = false /\ kinded a
  | SInt a => isint a = true /\ kinded a
  | SNot a | SNeg a | SAref _ a => kinded a
  | SAnd a b | SOr a b | SImp a b | SIff a b | SBin _ a b => kinded a /\ kinded b
  | SXor a b => isint a = false /\ kinded a /\ kinded b
  | SCmp c a b => match c with CEq | CNe => isint a = true | _ => True end /\ kinded a /\ kinded b
  | SIif c a b => kinded c /\ isint a = true /\ kinded a /\ isint b = true /\ kinded b
  | SQuant _ _ n body => constant n /\ kinded body
  end.
(** The tree with every operand in parentheses. *)
Definition enclosed (e : sexp) : sexp := if isint e then SInt e else SBool e.
Fixpoint bracketed (e : sexp) : sexp :=
  match e with
  | SName _ | SNat _ => e
  | SBool a => SBool (bracketed a)
  | SInt a => SInt (bracketed a)
  | SNot a => SNot (enclosed (bracketed a))
  | SNeg a => SNeg (enclosed (bracketed a))
  | SAnd a b => SAnd (enclosed (bracketed a)) (enclosed (bracketed b))
  | SOr a b => SOr (enclosed (bracketed a)) (enclosed (bracketed b))
  | SImp a b => SImp (enclosed (bracketed a)) (enclosed (bracketed b))
  | SIff a b => SIff (enclosed (bracketed a)) (enclosed (bracketed b))
  | SXor a b => SXor (enclosed (bracketed a)) (enclosed (bracketed b))
  | SCmp c a b => SCmp c (enclosed (bracketed a)) (enclosed (bracketed b))
  | SBin op a b => SBin op (enclosed (bracketed a)) (enclosed (bracketed b))
  | SIif c a b => SIif (bracketed c) (bracketed a) (bracketed b)
  | SQuant q x n body => SQuant q x (enclosed (bracketed n)) (bracketed body)
  | SAref x i => SAref x (bracketed i)
  end.
