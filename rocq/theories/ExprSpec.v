(** What an expression of a protocol file means in a state, with the usual scoping: the innermost
    declaration of a name counts. *)
From Coq Require Import String List Arith Bool ZArith.
From Verif Require Import FmlaModel FmlaSpec IntModel IntSpec ExprModel.
Import ListNotations.
Local Open Scope list_scope.

(** The declarations a process sees. *)
Record scope := mkScope {
  s_lets : list (string * Z);
  s_preds : list (string * (list nat -> bool));
  g_consts : list (string * list Z);
  g_arrays : list (string * list nat);
  g_preds : list (string * (list nat -> bool))
}.

Section Meaning.
Variable G : scope.

(** The value of a name: of an index, of a let of the process, of a constant. *)
Definition int_named (b : imap) (x : string) : option Z :=
  match assoc x b with
  | Some v => Some v
  | None => match assoc x (s_lets G) with
            | Some v => Some v
            | None => match assoc x (g_consts G) with Some (v :: _) => Some v | _ => None end
            end
  end.
Definition pred_named (x : string) (s : list nat) : option bool :=
  if String.eqb x "true" then Some true else if String.eqb x "false" then Some false
  else match assoc x (s_preds G) with
       | Some p => Some (p s)
       | None => match assoc x (g_preds G) with Some p => Some (p s) | None => None end
       end.
(** Member [k] of a list; the indices go round. *)
Definition member {A} (l : list A) (k : Z) : option A := nth_error l (Z.to_nat (k mod Z.of_nat (length l))).

Definition compares (c : cmpop) (x y : Z) : bool :=
  match c with
  | CLt => if Z_lt_dec x y then true else false
  | CLe => if Z_le_dec x y then true else false
  | CNe => if Z.eq_dec x y then false else true
  | CEq => if Z.eq_dec x y then true else false
  | CGe => if Z_le_dec y x then true else false
  | CGt => if Z_lt_dec y x then true else false
  end.
Definition quantifies (q : quant) (l : list bool) : bool :=
  match q with
  | QForall => forallb id l
  | QExists => existsb id l
  | QUnique => count_occ bool_dec l true =? 1
  end.
Fixpoint all_defined (l : list (option bool)) : option (list bool) :=
  match l with
  | [] => Some []
  | Some x :: l' => option_map (cons x) (all_defined l')
  | None :: _ => None
  end.

(** The value in state [s], where the indices have the values [b].  [None]: no meaning.  The right side
    of "&&", "||" and "==>" does not count where the left side decides. *)
Fixpoint truth (b : imap) (e : sexp) (s : list nat) {struct e} : option bool :=
  match e with
  | SName x => pred_named x s
  | SBool a => truth b a s
  | SInt a => truth b a s
  | SNot a => option_map negb (truth b a s)
  | SAnd a c => match truth b a s with Some true => truth b c s | o => o end
  | SOr a c => match truth b a s with Some false => truth b c s | o => o end
  | SImp a c => match truth b a s with Some true => truth b c s | Some false => Some true | None => None end
  | SIff a c => match truth b a s, truth b c s with Some x, Some y => Some (Bool.eqb x y) | _, _ => None end
  | SXor a c => match truth b a s, truth b c s with Some x, Some y => Some (negb (Bool.eqb x y)) | _, _ => None end
  | SCmp r a c => match value_of b a s, value_of b c s with Some x, Some y => Some (compares r x y) | _, _ => None end
  | SQuant q x n body =>
      match value_of b n s with
      | Some k =>
          if Z_lt_dec 0 k then
            option_map (quantifies q)
              (all_defined (map (fun i => truth ((x, Z.of_nat i) :: b) body s) (seq 0 (Z.to_nat k))))
          else None
      | None => None
      end
  | SNat _ | SNeg _ | SBin _ _ _ | SIif _ _ _ | SAref _ _ => None
  end
with value_of (b : imap) (e : sexp) (s : list nat) {struct e} : option Z :=
  match e with
  | SName x => int_named b x
  | SNat n => Some (Z.of_nat n)
  | SInt a => value_of b a s
  | SNeg a => option_map Z.opp (value_of b a s)
  | SBin op a c => match value_of b a s, value_of b c s with Some x, Some y => op_means op x y | _, _ => None end
  | SIif c a d => match truth b c s with Some true => value_of b a s | Some false => value_of b d s | None => None end
  | SAref x i =>
      match value_of b i s with
      | Some k =>
          match assoc x (g_arrays G) with
          | Some l => option_map (fun v => Z.of_nat (nth v s 0)) (member l k)
          | None => match assoc x (g_consts G) with Some l => member l k | None => None end
          end
      | None => None
      end
  | SBool _ | SNot _ | SAnd _ _ | SOr _ _ | SImp _ _ | SIff _ _ | SXor _ _ | SCmp _ _ _ | SQuant _ _ _ _ => None
  end.
End Meaning.

(** No quantifier uses the name of an index already in use. *)
Fixpoint fresh_indices (used : list string) (e : sexp) : Prop :=
  match e with
  | SName _ | SNat _ => True
  | SBool a | SInt a | SNot a | SNeg a | SAref _ a => fresh_indices used a
  | SAnd a b | SOr a b | SImp a b | SIff a b | SXor a b | SCmp _ a b | SBin _ a b =>
      fresh_indices used a /\ fresh_indices used b
  | SIif c a b => fresh_indices used c /\ fresh_indices used a /\ fresh_indices used b
  | SQuant _ x n body => ~ In x used /\ fresh_indices used n /\ fresh_indices (x :: used) body
  end.

Section Declared.
Variable ds : list nat.
(** The formula [pf] is the predicate [p]. *)
Definition is_pred (pf : fmla) (p : list nat -> bool) : Prop :=
  state_fmla ds pf /\ forall s, ok ds s -> (holds pf s <-> p s = true).
Definition same_keys {A B} (R : A -> B -> Prop) (l : list (string * A)) (l' : list (string * B)) : Prop :=
  Forall2 (fun p q => fst p = fst q /\ R (snd p) (snd q)) l l'.
(** [G] is what file [F] declares, seen from process [P] (if any); no name is declared both in the
    process and outside, nor both as a constant and as a variable. *)
Record declares (F : file) (P : option pcuse) (G : scope) : Prop := mkDeclares {
  d_consts : f_consts F = g_consts G;
  d_nonempty : forall x l, assoc x (g_consts G) = Some l -> l <> [];
  d_arrays : f_arrays F = g_arrays G;
  d_members : forall x l, assoc x (g_arrays G) = Some l -> l <> [] /\ Forall (fun v => v < length ds) l;
  d_preds : same_keys is_pred (f_preds F) (g_preds G);
  d_lets : match P with
           | Some u => same_keys (fun l v => nth_error l (u_idx u) = Some v) (u_lets u) (s_lets G)
           | None => s_lets G = []
           end;
  d_ppreds : match P with
             | Some u => same_keys (fun l p => exists pf, nth_error l (u_idx u) = Some pf /\ is_pred pf p) (u_preds u) (s_preds G)
             | None => s_preds G = []
             end;
  d_let_once : forall x, assoc x (s_lets G) <> None -> assoc x (g_consts G) = None;
  d_pred_once : forall x, assoc x (s_preds G) <> None -> assoc x (g_preds G) = None;
  d_array_once : forall x, assoc x (g_arrays G) <> None -> assoc x (g_consts G) = None
}.

(** A condition under which an expression must be accepted: every part has a value in every state, whether it
    counts or not, indices of arrays mention no variables, conditions of "if" are the same in all
    states, and the process reads the variables. *)
Fixpoint mentions_vbl (G : scope) (e : sexp) : bool :=
  match e with
  | SInt a | SNeg a => mentions_vbl G a
  | SBin _ a b => mentions_vbl G a || mentions_vbl G b
  | SIif _ a b => mentions_vbl G a || mentions_vbl G b
  | SAref x _ => match assoc x (g_arrays G) with Some _ => true | None => false end
  | _ => false
  end.
Variable G : scope.
Variable readable : nat -> Prop.
Fixpoint total_b (b : imap) (e : sexp) {struct e} : Prop :=
  match e with
  | SName x => forall s, ok ds s -> pred_named G x s <> None
  | SBool a => total_b b a
  | SInt a => total_b b a
  | SNot a => total_b b a
  | SAnd a c | SOr a c | SImp a c | SIff a c | SXor a c => total_b b a /\ total_b b c
  | SCmp r a c => total_i b a /\ total_i b c
  | SQuant q x n body => total_i b n /\ mentions_vbl G n = false /\
      (forall s k, ok ds s -> value_of G b n s = Some k -> (0 < k)%Z) /\
      (forall s k v, ok ds s -> value_of G b n s = Some k -> (0 <= v < k)%Z -> total_b ((x, v) :: b) body)
  | SNat _ | SNeg _ | SBin _ _ _ | SIif _ _ _ | SAref _ _ => False
  end
with total_i (b : imap) (e : sexp) {struct e} : Prop :=
  match e with
  | SName x => int_named G b x <> None
  | SNat n => True
  | SInt a => total_i b a
  | SNeg a => total_i b a
  | SBin op a c => total_i b a /\ total_i b c /\
      (forall s x y, ok ds s -> value_of G b a s = Some x -> value_of G b c s = Some y -> op_means op x y <> None)
  | SIif c a d => total_b b c /\
      (((forall s, ok ds s -> truth G b c s = Some true) /\ total_i b a) \/
       ((forall s, ok ds s -> truth G b c s = Some false) /\ total_i b d))
  | SAref x i => total_i b i /\ mentions_vbl G i = false /\
      match assoc x (g_arrays G) with
      | Some l => forall s k v, ok ds s -> value_of G b i s = Some k -> member l k = Some v -> readable v
      | None => assoc x (g_consts G) <> None
      end
  | SBool _ | SNot _ | SAnd _ _ | SOr _ _ | SImp _ _ | SIff _ _ | SXor _ _ | SCmp _ _ _ | SQuant _ _ _ _ => False
  end.
End Declared.
