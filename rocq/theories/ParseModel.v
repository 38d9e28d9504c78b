(** The expressions and actions of a protocol file as text: reading (prot-xfile.leg) and writing
    (prot-xfile.cc:981-1153, prot-ofile.cc).

    A text is the list of its tokens.  Left out: the characters, blanks and comments; the blank that
    must follow "if" and "forall" (the words "if", "then", "else", "forall", "exists", "unique" are
    no names here); the alternative of Expr that takes malformed text and reports it
    (prot-xfile.leg:379-384): such text is refused here as well.  A comparison "a<-1" has the tokens
    "<" and "-"; "<-" is a token only where the grammar asks for it.  [TWord]: the key words and brackets of
    declarations; they end every expression.

    Models
      - /repo/src/prot-xfile.leg:82-110   ActionExpr,
      - /repo/src/prot-xfile.leg:301-372  the expressions of constants,
      - /repo/src/prot-xfile.leg:375-569  the other expressions,
      - /repo/src/prot-xfile.cc:981-1153  string_expression and parend_string_expression without scope'd
                                          lets (those exist only while links are declared),
      - /repo/src/prot-xfile.cc:796-846, 905-962  the text kept of assumptions and invariants. *)
From Coq Require Import String List Arith Bool ZArith.
From Verif Require Import FmlaModel IntModel ExprModel ActModel NetModel CmdModel.
Import ListNotations.
Local Open Scope list_scope.

Inductive tok :=
| TId (x : string) | TNat (n : nat) | TQuant (q : quant) | TIf | TThen | TElse
| TLp | TRp | TLb | TRb | TComma | TColon | TIn
| TIff | TImp | TOr | TAnd | TCmp (c : cmpop) | TPlus | TMinus | TMul | TDiv | TMod | TPow | TBang
| TTo | TCutTo | TSet | TSemi | TWild | TWord (w : string).

(** What a rule gives: the tree, whether it is known to be an integer (int_ck), the text after it. *)
Definition parser := list tok -> option (sexp * bool * list tok).

(** a:Sub (op b:Sub {...})*: prot-xfile.leg:413-439, 482-508, 530-534.  The second argument bounds the
    number of rounds; the length of the text is enough. *)
Fixpoint chain (op : tok -> option (sexp -> sexp -> sexp)) (flag : bool) (sub : parser)
  (fuel : nat) (a : sexp) (i : bool) (ts : list tok) : option (sexp * bool * list tok) :=
  match fuel with
  | 0 => Some (a, i, ts)
  | S fuel' =>
      match ts with
      | t :: r =>
          match op t with
          | Some c => match sub r with Some (b, _, r') => chain op flag sub fuel' (c a b) flag r' | None => Some (a, i, ts) end
          | None => Some (a, i, ts)
          end
      | [] => Some (a, i, ts)
      end
  end.
Definition chained (op : tok -> option (sexp -> sexp -> sexp)) (flag : bool) (first sub : parser) : parser :=
  fun ts => match first ts with Some (a, i, r) => chain op flag sub (length r) a i r | None => None end.

(** prot-xfile.leg:530-534, 493-508, 481-491, 434-439, 427-432, 420-425, 413-418 *)
Definition pow_op (t : tok) := match t with TPow => Some (SBin PowOp) | _ => None end.
Definition mul_op (t : tok) :=
  match t with TMul => Some (SBin MulOp) | TDiv => Some (SBin DivOp) | TMod => Some (SBin ModOp) | _ => None end.
Definition add_op (t : tok) := match t with TPlus => Some (SBin AddOp) | TMinus => Some (SBin SubOp) | _ => None end.
Definition and_op (t : tok) := match t with TAnd => Some SAnd | _ => None end.
Definition or_op (t : tok) := match t with TOr => Some SOr | _ => None end.
Definition imp_op (t : tok) := match t with TImp => Some SImp | _ => None end.
Definition iff_op (t : tok) := match t with TIff => Some SIff | _ => None end.
(** 'max' and 'min' *)
Definition fun_op (x : string) : option intop :=
  if String.eqb x "max" then Some MaxOp else if String.eqb x "min" then Some MinOp else None.

(** The rules that are used again inside: IntExpr (Sum), Neg, Expr. *)
Inductive rule := RSum | RNeg | RExpr.

(** prot-xfile.leg:301-372: ConstIntExpr.  [R] reads what is nested. *)
Section Const.
Variable R : rule -> parser.
(** prot-xfile.leg:364-372 *)
Definition cvalue : parser := fun ts =>
  match ts with
  | TNat n :: r => Some (SNat n, true, r)
  | TId x :: r => Some (SName x, true, r)
  | TLp :: r => match R RSum r with Some (a, i, TRp :: r') => Some (SInt a, i, r') | _ => None end
  | _ => None
  end.
(** prot-xfile.leg:350-362 *)
Definition cfuncall : parser := fun ts =>
  match ts with
  | TId x :: TLp :: r =>
      match fun_op x with
      | Some op =>
          match R RSum r with
          | Some (a, _, TComma :: r1) =>
              match R RSum r1 with Some (b, _, TRp :: r2) => Some (SBin op a b, true, r2) | _ => cvalue ts end
          | _ => cvalue ts
          end
      | None => cvalue ts
      end
  | _ => cvalue ts
  end.
(** prot-xfile.leg:343-348 *)
Definition cpower : parser := chained pow_op true cfuncall (R RNeg).
(** prot-xfile.leg:328-341 *)
Definition cneg : parser := fun ts =>
  match ts with
  | TMinus :: r => match cpower r with Some (a, i, r') => Some (SNeg a, i, r') | None => None end
  | _ => cpower ts
  end.
(** prot-xfile.leg:315-326 *)
Definition cproduct : parser := chained mul_op true cneg cneg.
(** prot-xfile.leg:301-313 *)
Definition csum : parser := chained add_op true cproduct cproduct.
End Const.
Fixpoint read_const (n : nat) (l : rule) : parser :=
  match n with
  | 0 => fun _ => None
  | S n' => match l with RNeg => cneg (read_const n') | _ => csum (read_const n') end
  end.
Definition const_expr : parser := fun ts => read_const (S (length ts)) RSum ts.
(** NatDom uses ConstValue, prot-xfile.leg:577-583 *)
Definition const_value : parser := fun ts => cvalue (read_const (S (length ts))) ts.

Section Expr.
(** The names in the predicate map in use (that of the process, or that of the system). *)
Variable preds : list string.

Section Rules.
Variable R : rule -> parser.
(** prot-xfile.leg:550-569 *)
Definition value : parser := fun ts =>
  match ts with
  | TId x :: TLb :: r =>
      match R RExpr r with
      | Some (b, _, TRb :: r') => Some (SAref x b, true, r')
      | _ => Some (SName x, true, TLb :: r)
      end
  | TId x :: r => Some (SName x, true, r)
  | TNat n :: r => Some (SNat n, true, r)
  | TLp :: r => match R RExpr r with Some (a, i, TRp :: r') => Some (if i then SInt a else SBool a, i, r') | _ => None end
  | _ => None
  end.
(** prot-xfile.leg:536-548 *)
Definition funcall : parser := fun ts =>
  match ts with
  | TId x :: TLp :: r =>
      match fun_op x with
      | Some op =>
          match R RSum r with
          | Some (a, _, TComma :: r1) =>
              match R RSum r1 with Some (b, _, TRp :: r2) => Some (SBin op a b, true, r2) | _ => value ts end
          | _ => value ts
          end
      | None => value ts
      end
  | _ => value ts
  end.
(** prot-xfile.leg:529-534 *)
Definition power : parser := chained pow_op true funcall (R RNeg).
(** prot-xfile.leg:510-527 *)
Definition neg : parser := fun ts =>
  match ts with
  | TMinus :: r => match power r with Some (a, i, r') => Some (SNeg a, i, r') | None => None end
  | TBang :: r => match power r with Some (a, i, r') => Some (SNot a, i, r') | None => None end
  | _ => power ts
  end.
(** prot-xfile.leg:496-508 *)
Definition product : parser := chained mul_op true neg neg.
(** prot-xfile.leg:480-494 *)
Definition sum : parser := chained add_op true product product.
(** prot-xfile.leg:446-447: the left side is not an integer *)
Definition not_int (a : sexp) (i : bool) (j : bool) : bool :=
  negb i ||
  match a with
  (* prot-xfile.leg:454-474 *)
  | SName x => negb j || existsb (String.eqb x) preds
  | _ => false
  end.
Definition compare (c : cmpop) (a : sexp) (i : bool) (b : sexp) (j : bool) : sexp :=
  match c with
  | CEq => if not_int a i j then SIff a b else SCmp CEq a b
  | CNe => if not_int a i j then SXor a b else SCmp CNe a b
  | _ => SCmp c a b
  end.
(** prot-xfile.leg:441-478 *)
Definition comparison : parser := fun ts =>
  match sum ts with
  | Some (a, i, TCmp c :: r) =>
      match sum r with
      | Some (b, j, r') => Some (compare c a i b j, false, r')
      | None => Some (a, i, TCmp c :: r)
      end
  | o => o
  end.
(** prot-xfile.leg:570-583 *)
Definition in_nat_dom (ts : list tok) : option (sexp * list tok) :=
  match ts with
  | TIn :: TId k :: TMod :: r =>
      if String.eqb k "Int" || String.eqb k "Nat"
      then match const_value r with Some (n, _, r') => Some (n, r') | None => None end
      else None
  | TCmp CLt :: r => match const_expr r with Some (n, _, r') => Some (n, r') | None => None end
  | _ => None
  end.
(** prot-xfile.leg:398-410 *)
Definition quantify : parser := fun ts =>
  match ts with
  | TQuant q :: TId x :: r =>
      match in_nat_dom r with
      | Some (n, TColon :: r1) => match R RExpr r1 with Some (c, _, r2) => Some (SQuant q x n c, false, r2) | None => None end
      | _ => None
      end
  | _ => None
  end.
(** prot-xfile.leg:387-396, with the Claims *)
Definition if_then_else : parser := fun ts =>
  match ts with
  | TIf :: r =>
      match R RExpr r with
      | Some (a, _, TThen :: r1) =>
          match R RExpr r1 with
          | Some (b, i, TElse :: r2) =>
              match R RExpr r2 with
              | Some (c, j, r3) => if i && j then Some (SIif a b c, true, r3) else None
              | None => None
              end
          | _ => None
          end
      | _ => None
      end
  | _ => None
  end.
(** prot-xfile.leg:436-439 *)
Definition chainless : parser := fun ts => match quantify ts with Some x => Some x | None => comparison ts end.
Definition conjunction : parser := chained and_op false chainless chainless.
Definition disjunction : parser := chained or_op false conjunction conjunction.
Definition implication : parser := chained imp_op false disjunction disjunction.
Definition biimplication : parser := chained iff_op false implication implication.
(** prot-xfile.leg:375-378 *)
Definition expression : parser := fun ts =>
  match quantify ts with
  | Some x => Some x
  | None => match if_then_else ts with Some x => Some x | None => biimplication ts end
  end.
End Rules.

(** The nesting of the rules; everything nested comes after a token, so that the length of the text
    bounds it. *)
Fixpoint read_rule (n : nat) (l : rule) : parser :=
  match n with
  | 0 => fun _ => None
  | S n' => match l with RSum => sum (read_rule n') | RNeg => neg (read_rule n') | RExpr => expression (read_rule n') end
  end.
(** Rule Expr on a text, to its end *)
Definition read_expr (ts : list tok) : option sexp :=
  match read_rule (S (length ts)) RExpr ts with Some (e, _, []) => Some e | _ => None end.
(** Rule Expr at the start of a text *)
Definition take_expr (ts : list tok) : option (sexp * list tok) :=
  match read_rule (S (length ts)) RExpr ts with Some (e, _, r) => Some (e, r) | None => None end.

(** prot-xfile.leg:562-569, where an index is given *)
Definition take_ref (ts : list tok) : option (string * sexp * list tok) :=
  match ts with
  | TId x :: TLb :: r => match take_expr r with Some (i, TRb :: r') => Some (x, i, r') | _ => None end
  | _ => None
  end.
(** prot-xfile.leg:90-99: an assignment to a variable, with its ";" *)
Definition take_set (ts : list tok) : option (assignment * list tok) :=
  match take_ref ts with
  | Some (x, i, TSet :: TWild :: TSemi :: r) => Some (ASet x i None, r)
  | Some (x, i, TSet :: r) => match take_expr r with Some (v, TSemi :: r') => Some (ASet x i (Some v), r') | _ => None end
  | Some (x, i, TSemi :: r) => Some (ASet x i (Some (SAref x i)), r)
  | _ => None
  end.
(** prot-xfile.leg:90-107: one assignment with its ";" *)
Definition take_assign (ts : list tok) : option (assignment * list tok) :=
  match ts with
  | TWild :: TSet :: TWild :: TSemi :: r => Some (AAnyRest, r)
  | TWild :: TSemi :: r => Some (AKeepRest, r)
  | TWild :: _ => None
  | _ => take_set ts
  end.
Fixpoint take_assigns (n : nat) (ts : list tok) : list assignment * list tok :=
  match n with
  | 0 => ([], ts)
  | S n' => match take_assign ts with Some (a, r) => let (l, r') := take_assigns n' r in (a :: l, r') | None => ([], ts) end
  end.
(** prot-xfile.leg:82-110 *)
Definition read_action (ts : list tok) : option action :=
  match ts with
  | TLp :: r =>
      match take_expr r with
      | Some (g, t :: r1) =>
          match t with
          | TTo | TCutTo =>
              let (l, r2) := take_assigns (length r1) r1 in
              match r2 with [TRp] => Some (mkAction (match t with TCutTo => true | _ => false end) g l) | _ => None end
          | _ => None
          end
      | _ => None
      end
  | _ => None
  end.
End Expr.

Definition bin_tok (op : intop) : tok :=
  match op with
  | AddOp => TPlus | SubOp => TMinus | MulOp => TMul | DivOp => TDiv | ModOp => TMod | PowOp => TPow
  | MinOp => TId "min" | MaxOp => TId "max"
  end.
(** string_expression, prot-xfile.cc:981-1136 *)
Fixpoint print (e : sexp) : list tok :=
  match e with
  | SName x => [TId x]
  | SNat n => [TNat n]
  | SBool a | SInt a => TLp :: print a ++ [TRp]
  | SNot a => TBang :: print a
  | SNeg a => TMinus :: print a
  | SAnd a b => print a ++ TAnd :: print b
  | SOr a b => print a ++ TOr :: print b
  | SImp a b => print a ++ TImp :: print b
  | SIff a b => print a ++ TIff :: print b
  | SXor a b => print a ++ TCmp CNe :: print b
  | SCmp c a b => print a ++ TCmp c :: print b
  | SBin op a b =>
      match op with
      | MinOp | MaxOp => bin_tok op :: TLp :: print a ++ TComma :: print b ++ [TRp]
      | _ => print a ++ bin_tok op :: print b
      end
  | SQuant q x n body => TQuant q :: TId x :: TCmp CLt :: print n ++ TColon :: print body
  | SIif c a b => TIf :: print c ++ TThen :: print a ++ TElse :: print b
  | SAref x i => TId x :: TLb :: print i ++ [TRb]
  end.
(** prot-xfile.cc:1138-1153 *)
Definition parend (e : sexp) : list tok :=
  match e with SBool _ | SInt _ => print e | _ => TLp :: print e ++ [TRp] end.
(** prot-xfile.cc:796-813, 905-922: the text kept of the assumptions, statement by statement *)
Definition add_assume_text (old : list tok) (e : sexp) : list tok :=
  match old with [] => parend e | _ => old ++ TAnd :: parend e end.
(** prot-xfile.cc:831-846, 948-962: the text kept of the invariants, statement by statement *)
Definition add_legit_text (old : list tok) (e : sexp) : list tok :=
  match old with [] => print e | _ => TLp :: old ++ TRp :: TAnd :: print e end.
(** string_expression of an action, prot-xfile.cc:1058-1067, 1077-1080 *)
Definition print_assign (a : assignment) : list tok :=
  match a with
  | AKeepRest => [TWild; TSemi]
  | AAnyRest => [TWild; TSet; TWild; TSemi]
  | ASet x i v => print (SAref x i) ++ TSet :: match v with Some e => print e | None => [TWild] end ++ [TSemi]
  end.
(** oput_protocon_pc_acts puts the parentheses around it, prot-ofile.cc:213-235 *)
Definition print_action (a : action) : list tok :=
  TLp :: print (a_guard a) ++ (if a_cut a then TCutTo else TTo) :: concat (map print_assign (a_assigns a)) ++ [TRp].
