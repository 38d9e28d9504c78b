(** The variables that a process declares it accesses, one by one or in `symmetric` blocks: which variables
    these are, and the text of them in the output file.

    Models
      - /repo/src/prot-xfile.leg:167-200, 210-251  the declarations (ProcDecl without its head, VblAccessType,
                                            ValueList, SymmetricLinks); text that fits nothing ends them,
      - /repo/src/prot-xfile.cc:188-256     add_scope_let, del_scope_let, add_access,
      - /repo/src/prot-xfile.cc:258-356     add_symmetric_links, add_symmetric_access,
      - /repo/src/prot-xfile.cc:995-1001, 1405-1411  scope'd lets,
      - /repo/src/xnsys.cc:229-273          Net::add_access (the masks are in NetModel.v),
      - /repo/src/xnspec.hh:132-170         LinkSymmetry,
      - /repo/src/prot-ofile.cc:44-105      oput_protocon_pc_vbls.
    The texts that the code keeps are functions of the trees it reads; the trees are kept here. *)
From Coq Require Import String List Arith Bool ZArith.
From Verif Require Import FmlaModel IntModel ExprModel ActModel NetModel CmdModel ParseModel.
Import ListNotations.
Local Open Scope list_scope.

(** scope_let_map *)
Definition lmap := list (string * sexp).
Definition map2 {A B C} (f : A -> B -> C) (a : option A) (b : option B) : option C :=
  match a, b with Some x, Some y => Some (f x y) | _, _ => None end.
(** A tree with the values of lets in place of their names, as evaluation (prot-xfile.cc:1405-1411: only
    where an integer is wanted) or string_expression (prot-xfile.cc:995-1001: everywhere) treat it: both go on
    with the value where they meet the name, with the same lets.  [None]: the code does not end. *)
Fixpoint expand (n : nat) (text : bool) (L : lmap) : bool -> sexp -> option sexp :=
  fix go (int : bool) (e : sexp) : option sexp :=
    match e with
    | SName x =>
        if int || text then
          match assoc x L with
          | Some v => match n with 0 => None | S n' => expand n' text L int v end
          | None => Some e
          end
        else Some e
    | SNat _ => Some e
    | SBool a => option_map SBool (go false a)
    | SInt a => option_map SInt (go int a)
    | SNot a => option_map SNot (go false a)
    | SNeg a => option_map SNeg (go true a)
    | SAnd a b => map2 SAnd (go false a) (go false b)
    | SOr a b => map2 SOr (go false a) (go false b)
    | SImp a b => map2 SImp (go false a) (go false b)
    | SIff a b => map2 SIff (go false a) (go false b)
    | SXor a b => map2 SXor (go false a) (go false b)
    | SCmp c a b => map2 (SCmp c) (go true a) (go true b)
    | SBin op a b => map2 (SBin op) (go true a) (go true b)
    | SQuant q x k body => map2 (SQuant q x) (go true k) (go false body)
    | SIif c a b => match go false c with Some c' => map2 (SIif c') (go true a) (go true b) | None => None end
    | SAref x i => option_map (SAref x) (go true i)
    end.
(** Lets that are not circular are at most as deep as there are lets. *)
Definition expanded (text : bool) (L : lmap) (e : sexp) : option sexp := expand (length L) text L true e.

(** A reference x[i] with the type of access *)
Definition vref : Type := atype * string * sexp.
(** A declaration: an access, or a `symmetric` block: the names, the tuples of values, the accesses. *)
Inductive pdecl := PAccess (r : vref) | PLinks (names : list string) (vals : list (list sexp)) (vs : list vref).

(** One access of the kind: VblSymmAccessSpec, with the tree that was evaluated and the one that was written. *)
Record slot := mkSlot { sl_type : atype; sl_array : string; sl_index : sexp; sl_text : sexp }.
(** prot-xfile.cc:323-337: the lets of one tuple; later ones win. *)
Definition tuple_lets (names : list string) (tuple : list sexp) : option lmap :=
  if length names =? length tuple then Some (rev (combine names tuple)) else None.
Definition slot_of (L : lmap) (r : vref) : option slot :=
  match r with
  | (t, x, i) => map2 (mkSlot t x) (expanded false L i) (expanded true L i)
  end.
(** prot-xfile.cc:313-356: all links of the first variable, then those of the next *)
Definition decl_slots (d : pdecl) : option (list slot) :=
  match d with
  | PAccess r => option_map (fun sl => [sl]) (slot_of [] r)
  | PLinks names vals vs =>
      all_parsed (flat_map (fun r => map (fun tuple =>
        match tuple_lets names tuple with Some L => slot_of L r | None => None end) vals) vs)
  end.
Definition option_app {A} (a b : option (list A)) : option (list A) := map2 (@app A) a b.
Definition all_slots (ds : list pdecl) : option (list slot) :=
  fold_right (fun d acc => option_app (decl_slots d) acc) (Some []) ds.

Section Declare.
Variable ds : list nat.
Variable roles : list role.
Variable F : file.
Variable idx_name : string.
Variable lets : list (string * list Z).
Variable preds : list (string * list fmla).

(** A process of the kind being declared: its number, the value of its index, the variables so far. *)
Record draft := mkDraft { d_number : nat; d_index : Z; d_vbls : list nat }.
(** prot-xfile.cc:240-253, xnsys.cc:248-253 *)
Definition slot_vbl (d : draft) (sl : slot) : option nat :=
  match eval_i ds F (Some (mkUse lets preds (d_number d) (d_vbls d))) (set_key idx_name (d_index d) []) (sl_index sl) with
  | Some (z, _) =>
      match i_map z with
      | [k] => match assoc (sl_array sl) (f_arrays F) with Some l => nth_error l (umod_int k (length l)) | None => None end
      | _ => None
      end
  | None => None
  end.
(** prot-xfile.cc:211-258: the array must be known even if there is no process of the kind *)
Definition add_access (ms : list draft) (sl : slot) : option (list draft) :=
  match assoc (sl_array sl) (f_arrays F) with
  | None => None
  | Some _ => all_parsed (map (fun d => option_map (fun v => mkDraft (d_number d) (d_index d) (d_vbls d ++ [v])) (slot_vbl d sl)) ms)
  end.
Definition add_accesses (ms : list draft) (sls : list slot) : option (list draft) :=
  fold_left (fun acc sl => match acc with Some ms => add_access ms sl | None => None end) sls (Some ms).

(** xnsys.cc:233-246.  The role and the domain size of an array are those of its first variable. *)
Definition array_access (t : atype) (x : string) : access :=
  let v := match assoc x (f_arrays F) with Some (v :: _) => v | _ => 0 end in
  {| a_type := t; a_role := nth v roles Direct; a_dom := nth v ds 0 |}.
Definition slot_access (sl : slot) : access := array_access (sl_type sl) (sl_array sl).
End Declare.

(** ** Writing them: prot-ofile.cc:66-105 *)
Definition type_word (t : atype) : string :=
  match t with
  | ReadAccess => "read:" | WriteAccess => "write:" | YieldAccess => "yield:" | EffectAccess => "effect:"
  | RandomReadAccess => "random read:" | RandomWriteAccess => "random write:"
  end.
Definition print_ref (t : atype) (x : string) (i : sexp) : list tok := TWord (type_word t) :: print (SAref x i) ++ [TSemi].
Fixpoint commas (l : list (list tok)) : list tok :=
  match l with
  | [] => []
  | x :: l' => match l' with [] => x | _ :: _ => x ++ TComma :: commas l' end
  end.
(** LinkSymmetry: the positions, by variable and link; names, values and indices for the text
    (prot-xfile.cc:258-310, 350-352) *)
Record link_text := mkLinkText { lt_rows : list (list nat); lt_names : list string; lt_vals : list (list sexp); lt_indices : list sexp }.
(** prot-xfile.cc:264-309 *)
Definition let_text (names : list string) : list tok :=
  match names with [x] => [TId x] | _ => TLp :: commas (map (fun x => [TId x]) names) ++ [TRp] end.
Definition multiset_text (names : list string) (vals : list (list sexp)) : list tok :=
  match names with
  | [_] => commas (map (fun tuple => match tuple with v :: _ => print v | [] => [] end) vals)
  | _ => commas (map (fun tuple => TLp :: commas (map print tuple) ++ [TRp]) vals)
  end.
Definition elem_ck (k : link_text) (i : nat) : bool := existsb (existsb (Nat.eqb i)) (lt_rows k).
(** prot-ofile.cc:84-98: a whole block *)
Definition block_text (sls : list slot) (k : link_text) : list tok :=
  TWord "symmetric" :: let_text (lt_names k) ++ TIn :: TWord "{#" :: multiset_text (lt_names k) (lt_vals k)
    ++ TWord "#}" :: TWord "{"
    :: concat (map (fun ri => match nth_error sls (nth 0 (fst ri) 0) with
                              | Some sl => print_ref (sl_type sl) (sl_array sl) (snd ri) | None => [] end)
                   (combine (lt_rows k) (lt_indices k)))
    ++ [TWord "}"].
(** prot-ofile.cc:80-104: the loop; the first argument bounds the number of rounds. *)
Fixpoint vbls_text (n : nat) (sls : list slot) (ks : list link_text) (i : nat) : list tok :=
  match n with
  | 0 => []
  | S n' =>
      match nth_error sls i with
      | None => []
      | Some sl =>
          match find (fun k => elem_ck k i) ks with
          | Some k => block_text sls k ++ vbls_text n' sls ks (i + length (nth 0 (lt_rows k) []) * length (lt_rows k))
          | None => print_ref (sl_type sl) (sl_array sl) (sl_text sl) ++ vbls_text n' sls ks (S i)
          end
      end
  end.
(** The blocks of a process, the first one at position [base] (prot-xfile.cc:338, 350-352) *)
Fixpoint block_texts (base : nat) (ds : list pdecl) : list link_text :=
  match ds with
  | [] => []
  | PAccess _ :: ds' => block_texts (S base) ds'
  | PLinks names vals vs :: ds' =>
      mkLinkText (block_rows base (length vals) (length vs)) names vals (map snd vs)
      :: block_texts (base + length vals * length vs) ds'
  end.
Definition written_vbls (ds : list pdecl) (sls : list slot) : list tok := vbls_text (length sls) sls (block_texts 0 ds) 0.

(** ** Reading them *)
Section Read.
Variable preds : list string.
(** prot-xfile.leg:210-217 *)
Definition word_type (w : string) : option atype :=
  if String.eqb w "read:" then Some ReadAccess else if String.eqb w "write:" then Some WriteAccess
  else if String.eqb w "yield:" then Some YieldAccess else if String.eqb w "effect:" then Some EffectAccess
  else if String.eqb w "random read:" then Some RandomReadAccess else if String.eqb w "random write:" then Some RandomWriteAccess
  else None.
(** (',' v:VblRef)* *)
Fixpoint more_refs (n : nat) (ts : list tok) : list (string * sexp) * list tok :=
  match n, ts with
  | S n', TComma :: r =>
      match take_ref preds r with
      | Some (x, i, r') => let (l, r'') := more_refs n' r' in ((x, i) :: l, r'')
      | None => ([], ts)
      end
  | _, _ => ([], ts)
  end.
(** prot-xfile.leg:175-178, 241-249: one statement of accesses *)
Definition take_accesses (ts : list tok) : option (list vref * list tok) :=
  match ts with
  | TWord w :: r =>
      match word_type w with
      | Some t =>
          match take_ref preds r with
          | Some (x, i, r1) =>
              match more_refs (length r1) r1 with
              | (l, TSemi :: r2) => Some (map (fun p => (t, fst p, snd p)) ((x, i) :: l), r2)
              | _ => None
              end
          | None => None
          end
      | None => None
      end
  | _ => None
  end.
Fixpoint more_accesses (n : nat) (ts : list tok) : list vref * list tok :=
  match n with
  | 0 => ([], ts)
  | S n' => match take_accesses ts with Some (l, r) => let (l', r') := more_accesses n' r in (l ++ l', r') | None => ([], ts) end
  end.
(** (',' ...)* of names and expressions *)
Fixpoint more_names (n : nat) (ts : list tok) : list string * list tok :=
  match n, ts with
  | S n', TComma :: TId x :: r => let (l, r') := more_names n' r in (x :: l, r')
  | _, _ => ([], ts)
  end.
Fixpoint more_exprs (n : nat) (ts : list tok) : list sexp * list tok :=
  match n, ts with
  | S n', TComma :: r =>
      match take_expr preds r with
      | Some (e, r') => let (l, r'') := more_exprs n' r' in (e :: l, r'')
      | None => ([], ts)
      end
  | _, _ => ([], ts)
  end.
(** prot-xfile.leg:219-224 *)
Definition value_list (ts : list tok) : option (list sexp * list tok) :=
  match ts with
  | TLp :: r =>
      match take_expr preds r with
      | Some (e, r1) => match more_exprs (length r1) r1 with (l, TRp :: r2) => Some (e :: l, r2) | _ => None end
      | None => None
      end
  | _ => None
  end.
Fixpoint more_lists (n : nat) (ts : list tok) : list (list sexp) * list tok :=
  match n, ts with
  | S n', TComma :: r =>
      match value_list r with
      | Some (v, r') => let (l, r'') := more_lists n' r' in (v :: l, r'')
      | None => ([], ts)
      end
  | _, _ => ([], ts)
  end.
(** prot-xfile.leg:226-240: names and values *)
Definition take_lets (ts : list tok) : option (list string * list (list sexp) * list tok) :=
  match ts with
  | TId x :: TIn :: TWord o :: r =>
      if String.eqb o "{#" then
        match take_expr preds r with
        | Some (e, r1) => let (l, r2) := more_exprs (length r1) r1 in Some ([x], map (fun e => [e]) (e :: l), r2)
        | None => None
        end
      else None
  | TLp :: TId x :: r =>
      match more_names (length r) r with
      | (xs, TRp :: TIn :: TWord o :: r1) =>
          if String.eqb o "{#" then
            match value_list r1 with
            | Some (v, r2) => let (l, r3) := more_lists (length r2) r2 in Some (x :: xs, v :: l, r3)
            | None => None
            end
          else None
      | _ => None
      end
  | _ => None
  end.
Definition word_is (w : string) (t : tok) : bool := match t with TWord w' => String.eqb w w' | _ => false end.
(** prot-xfile.leg:226-251 *)
Definition take_links (ts : list tok) : option (pdecl * list tok) :=
  match ts with
  | t :: r =>
      if word_is "symmetric" t then
        match take_lets r with
        | Some (names, vals, c :: o :: r1) =>
            if word_is "#}" c && word_is "{" o then
              match more_accesses (length r1) r1 with
              | (v :: vs, c' :: r2) => if word_is "}" c' then Some (PLinks names vals (v :: vs), r2) else None
              | _ => None
              end
            else None
        | _ => None
        end
      else None
  | [] => None
  end.
(** prot-xfile.leg:174-181: one or more statements *)
Definition take_decl (ts : list tok) : option (list pdecl * list tok) :=
  match take_accesses ts with
  | Some (l, r) => Some (map PAccess l, r)
  | None => match take_links ts with Some (d, r) => Some ([d], r) | None => None end
  end.
Fixpoint take_decls (n : nat) (ts : list tok) : list pdecl * list tok :=
  match n with
  | 0 => ([], ts)
  | S n' => match take_decl ts with Some (l, r) => let (l', r') := take_decls n' r in (l ++ l', r') | None => ([], ts) end
  end.
Definition read_vbls (ts : list tok) : list pdecl * list tok := take_decls (length ts) ts.
End Read.
