(** Evaluation of the expressions of a protocol file (prot-xfile.cc:1155-1726).

    An expression is the tree the parser builds (prot-xfile.leg:375-594).  Every function gives
    [None] where the code reports an error (and [allgood] stays false) or a Claim fails.
    Not modelled: the scope'd lets of prot-xfile.cc:1406-1411 and 179-199, which exist only while
    the links of a process are declared (prot-xfile.cc:313-356); text of error messages. *)
From Coq Require Import String List Arith Bool ZArith.
From Verif Require Import FmlaModel IntModel.
Import ListNotations.
Local Open Scope list_scope.

Inductive cmpop := CLt | CLe | CNe | CEq | CGe | CGt.
Inductive quant := QForall | QExists | QUnique.
(** The trees of prot-xfile.leg: a name, a number, "(bool)", "(int)", "!", "&&", "||", "==>", "<=>",
    "xor", the comparisons, the quantifiers (with the bound inside "NatDom"), "negate", the
    operators, "iif", "aref". *)
Inductive sexp :=
| SName (x : string) | SNat (n : nat) | SBool (a : sexp) | SInt (a : sexp)
| SNot (a : sexp) | SAnd (a b : sexp) | SOr (a b : sexp) | SImp (a b : sexp) | SIff (a b : sexp) | SXor (a b : sexp)
| SCmp (c : cmpop) (a b : sexp)
| SQuant (q : quant) (x : string) (n body : sexp)
| SNeg (a : sexp) | SBin (op : intop) (a b : sexp) | SIif (c a b : sexp) | SAref (x : string) (i : sexp).

(** Map of the cx library (not in /repo): lookup, assignment, erase *)
Fixpoint assoc {A} (x : string) (l : list (string * A)) : option A :=
  match l with [] => None | (y, a) :: l' => if String.eqb x y then Some a else assoc x l' end.
Definition set_key {A} (x : string) (a : A) (l : list (string * A)) : list (string * A) := (x, a) :: l.
Definition erase_key {A} (x : string) (l : list (string * A)) : list (string * A) :=
  filter (fun p => negb (String.eqb x (fst p))) l.

(** What the file has declared so far: Spec::constant_map, ProtoconFile::vbl_map (the formula
    variables of each array), Sys::predicate_map. *)
Record file := mkFile { f_consts : list (string * list Z); f_arrays : list (string * list nat); f_preds : list (string * fmla) }.
(** The process in use (prot-xfile.cc:1620-1635): PcSymmSpec::let_map, PcSymm::predicate_map, its
    number, its readable variables. *)
Record pcuse := mkUse { u_lets : list (string * list Z); u_preds : list (string * list fmla); u_idx : nat; u_rvbls : list nat }.
Definition imap := list (string * Z).

Section Eval.
Variable ds : list nat.
Variable F : file.
Variable P : option pcuse.

(** prot-xfile.cc:1704-1725 *)
Definition lookup_int (m : imap) (x : string) : option Z :=
  match assoc x m with
  | Some v => Some v
  | None =>
      match assoc x (f_consts F) with
      | Some l => nth_error l 0
      | None =>
          match P with
          | Some u => match assoc x (u_lets u) with Some l => nth_error l (u_idx u) | None => None end
          | None => None
          end
      end
  end.
(** prot-xfile.cc:1674-1702 *)
Definition lookup_pfmla (x : string) : option fmla :=
  if String.eqb x "true" then Some (Cst true)
  else if String.eqb x "false" then Some (Cst false)
  else match assoc x (f_preds F) with
  | Some pf => Some pf
  | None =>
      match P with
      | Some u => match assoc x (u_preds u) with Some l => nth_error l (u_idx u) | None => None end
      | None => None
      end
  end.
(** umod_int of the cx library (not in /repo): the remainder that is not negative *)
Definition umod_int (i : Z) (n : nat) : nat := Z.to_nat (i mod Z.of_nat n).
(** prot-xfile.cc:1637-1672, after the evaluation of the index *)
Definition lookup_vbl (x : string) (idx : Z) : option nat :=
  match assoc x (f_arrays F) with
  | None => None
  | Some l =>
      match nth_error l (umod_int idx (length l)) with
      | None => None
      | Some v =>
          match P with
          | Some u => if existsb (Nat.eqb v) (u_rvbls u) then Some v else None
          | None => Some v
          end
      end
  end.
(** pfmla.hh:522-527 *)
Definition cmp_fmla (c : cmpop) (a b : ipf) : option fmla :=
  match c with
  | CLt => cmp ds a b true false false
  | CLe => cmp ds a b true true false
  | CNe => cmp ds a b true false true
  | CEq => cmp ds a b false true false
  | CGe => cmp ds a b false true true
  | CGt => cmp ds a b false false true
  end.
(** prot-xfile.cc:1310-1319 *)
Definition quant_init (q : quant) : fmla * fmla :=
  match q with QForall => (Cst true, Cst false) | QExists => (Cst false, Cst false) | QUnique => (Cst false, Cst false) end.
(** prot-xfile.cc:1326-1337 *)
Definition quant_step (q : quant) (acc : fmla * fmla) (pf_c : fmla) : fmla * fmla :=
  let (pf, pf_b) := acc in
  match q with
  | QForall => (and_PFmla pf pf_c, pf_b)
  | QExists => (or_PFmla pf pf_c, pf_b)
  | QUnique =>
      let pf1 := nimp_PFmla pf (and_PFmla pf_c pf_b) in
      (or_PFmla pf1 (nimp_PFmla pf_c pf_b), or_PFmla pf_b pf_c)
  end.

(** prot-xfile.cc:1321-1339: the loop over the values of the index *)
Definition quant_loop (x : string) (q : quant) (ev : imap -> option (fmla * imap)) :=
  fix loop (vs : list Z) (acc : fmla * fmla) (m : imap) : option (fmla * imap) :=
    match vs with
    | [] => Some (fst acc, erase_key x m)
    | v :: vs' =>
        match ev (set_key x v m) with
        | None => None
        | Some (pf_c, m') => loop vs' (quant_step q acc pf_c) m'
        end
    end.

(** prot-xfile.cc:1155-1386 ([eval_f]), 1393-1548 ([eval_i]), 1550-1564 (eval_int), 1582-1594
    (eval_gtz), 1596-1618 (eval_vbl).  The index map is the one the code changes. *)
Fixpoint eval_f (m : imap) (e : sexp) {struct e} : option (fmla * imap) :=
  match e with
  | SName x => option_map (fun pf => (pf, m)) (lookup_pfmla x)
  | SBool a => eval_f m a
  | SInt a => eval_f m a
  | SNot a => match eval_f m a with Some (pf, m1) => Some (not_PFmla pf, m1) | None => None end
  | SAnd a b =>
      match eval_f m a with
      | None => None
      | Some (pf, m1) =>
          if negb (sat_ck ds pf) then Some (pf, m1)
          else match eval_f m1 b with Some (pf_c, m2) => Some (and_PFmla pf pf_c, m2) | None => None end
      end
  | SOr a b =>
      match eval_f m a with
      | None => None
      | Some (pf, m1) =>
          if tautology_ck ds pf then Some (pf, m1)
          else match eval_f m1 b with Some (pf_c, m2) => Some (or_PFmla pf pf_c, m2) | None => None end
      end
  | SImp a b =>
      match eval_f m a with
      | None => None
      | Some (pf, m1) =>
          if negb (sat_ck ds pf) then Some (Cst true, m1)
          else match eval_f m1 b with Some (pf_c, m2) => Some (or_PFmla (not_PFmla pf) pf_c, m2) | None => None end
      end
  | SIff a b =>
      match eval_f m a with
      | None => None
      | Some (pf, m1) => match eval_f m1 b with Some (pf_c, m2) => Some (xnor_PFmla pf pf_c, m2) | None => None end
      end
  | SXor a b =>
      match eval_f m a with
      | None => None
      | Some (pf, m1) => match eval_f m1 b with Some (pf_c, m2) => Some (xor_PFmla pf pf_c, m2) | None => None end
      end
  | SCmp c a b =>
      match eval_i m a with
      | None => None
      | Some (x, m1) =>
          match eval_i m1 b with
          | None => None
          | Some (y, m2) => option_map (fun pf => (pf, m2)) (cmp_fmla c x y)
          end
      end
  | SQuant q x n body =>
      match eval_i m n with
      | None => None
      | Some (z, m1) =>
          match i_map z with
          | [k] =>
              if (0 <? k)%Z then
                quant_loop x q (fun m => eval_f m body) (i_map (of_range (Z.to_nat k))) (quant_init q) m1
              else None
          | _ => None
          end
      end
  | SNat _ | SNeg _ | SBin _ _ _ | SIif _ _ _ | SAref _ _ => None
  end
with eval_i (m : imap) (e : sexp) {struct e} : option (ipf * imap) :=
  match e with
  | SName x => option_map (fun v => (of_int v, m)) (lookup_int m x)
  | SNat n => Some (of_int (Z.of_nat n), m)
  | SInt a => eval_i m a
  | SNeg a => match eval_i m a with Some (x, m1) => Some (negate x, m1) | None => None end
  | SBin op a b =>
      match eval_i m a with
      | None => None
      | Some (x, m1) =>
          match eval_i m1 b with
          | None => None
          | Some (y, m2) => option_map (fun z => (z, m2)) (defeq_binop x y op)
          end
      end
  | SIif c a b =>
      match eval_f m c with
      | None => None
      | Some (pf, m1) =>
          if tautology_ck ds pf then eval_i m1 a
          else if negb (sat_ck ds pf) then eval_i m1 b
          else None
      end
  | SAref x i =>
      match eval_i m i with
      | None => None
      | Some (z, m1) =>
          match i_map z with
          | [k] =>
              match assoc x (f_consts F) with
              | Some l => option_map (fun v => (of_int v, m1)) (nth_error l (umod_int k (length l)))
              | None => option_map (fun v => (of_vbl ds v, m1)) (lookup_vbl x k)
              end
          | _ => None
          end
      end
  | SBool _ | SNot _ | SAnd _ _ | SOr _ _ | SImp _ _ | SIff _ _ | SXor _ _ | SCmp _ _ _ | SQuant _ _ _ _ => None
  end.
End Eval.
