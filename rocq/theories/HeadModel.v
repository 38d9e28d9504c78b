(** The declarations of a protocol file: constants, variables, kinds of processes; and the whole file.

    Models
      - /repo/src/prot-xfile.leg:23-82, 164-205  the order in which a file has them (ProtoconFile, ConstDecl, ConstIntList,
                                            VarDecl, ProcDecl),
      - /repo/src/prot-xfile.cc:33-61       add_variables,
      - /repo/src/prot-xfile.cc:63-104      add_processes,
      - /repo/src/prot-xfile.cc:106-163     add_constant, add_constant_list,
      - /repo/src/prot-xfile.cc:165-187     add_let,
      - /repo/src/prot-xfile.cc:1550-1594   eval_int, eval_nat, eval_gtz,
      - /repo/src/prot-xfile.cc:1620-1635   within_process, escape_process (the index of a process),
      - /repo/src/xnsys.cc:121-226          Net::add_variables, commit_variable, commit_variables, add_processes,
      - /repo/src/xnspec.hh:67-131          NatMap, LetVblMap.
    The strings that are kept for output are left out, and so is featherweight reading.  A variable array in an expression of
    a variable declaration makes the code follow a null pointer; here it is refused.  Values are integers of any size.
    [None]: the file is refused. *)
From Coq Require Import String List Arith Bool ZArith.
From Verif Require Import FinLib ParseModel AccessModel FmlaModel ActModel NetModel IntModel ExprModel CmdModel DeclModel.
Import ListNotations.
Local Open Scope list_scope.

(** prot-xfile.cc:1550-1563 *)
Definition eval_int (ds : list nat) (F : file) (P : option pcuse) (m : imap) (e : sexp) : option Z :=
  match eval_i ds F P m e with
  | Some (z, _) => match i_map z with [k] => Some k | _ => None end
  | None => None
  end.
(** prot-xfile.cc:1565-1579 *)
Definition eval_nat (ds : list nat) (F : file) (P : option pcuse) (m : imap) (e : sexp) : option nat :=
  match eval_int ds F P m e with Some k => if (0 <=? k)%Z then Some (Z.to_nat k) else None | None => None end.
(** prot-xfile.cc:1581-1594 *)
Definition eval_gtz (ds : list nat) (F : file) (P : option pcuse) (m : imap) (e : sexp) : option nat :=
  match eval_int ds F P m e with Some k => if (0 <? k)%Z then Some (Z.to_nat k) else None | None => None end.

(** ** Constants *)
(** prot-xfile.leg:44-59: "constant x := e;" and "constant x := (e, .., e);" *)
Inductive cdecl := ConstInt (x : string) (e : sexp) | ConstList (x : string) (es : list sexp).
Definition const_name (c : cdecl) : string := match c with ConstInt x _ => x | ConstList x _ => x end.
(** What expressions see while constants and variables are declared: there are no variables yet. *)
Definition const_file (consts : list (string * list Z)) : file := mkFile consts [] [].
Definition constant_value (consts : list (string * list Z)) (e : sexp) : option Z := eval_int [] (const_file consts) None [] e.
(** prot-xfile.cc:118-122, 157-160: a constant that has a value keeps it *)
Definition put_constant (consts : list (string * list Z)) (x : string) (val : list Z) : list (string * list Z) :=
  match assoc x consts with Some _ => consts | None => consts ++ [(x, val)] end.
(** prot-xfile.cc:106-125, 127-163 *)
Definition add_constant (consts : list (string * list Z)) (c : cdecl) : option (list (string * list Z)) :=
  match c with
  | ConstInt x e => option_map (fun v => put_constant consts x [v]) (constant_value consts e)
  | ConstList x es => option_map (put_constant consts x) (all_parsed (map (constant_value consts) es))
  end.
(** [consts] at first: those given on the command line (opt.cc, -def) *)
Fixpoint read_consts (consts : list (string * list Z)) (l : list cdecl) : option (list (string * list Z)) :=
  match l with
  | [] => Some consts
  | c :: l' => match add_constant consts c with Some consts' => read_consts consts' l' | None => None end
  end.

(** ** Variables *)
(** prot-xfile.leg:70-82: "variable x[size] < dom;" *)
Record vdecl := mkVdecl { vd_role : role; vd_name : string; vd_size : sexp; vd_dom : sexp }.
(** VblSymm *)
Record vsymm := mkVsymm { vs_role : role; vs_name : string; vs_size : nat; vs_dom : nat }.
(** prot-xfile.cc:33-61, xnsys.cc:121-140 *)
Definition add_variables (consts : list (string * list Z)) (symms : list vsymm) (d : vdecl) : option (list vsymm) :=
  match eval_gtz [] (const_file consts) None [] (vd_size d), eval_gtz [] (const_file consts) None [] (vd_dom d) with
  | Some nmembs, Some domsz => Some (symms ++ [mkVsymm (vd_role d) (vd_name d) nmembs domsz])
  | _, _ => None
  end.
Fixpoint read_vdecls (consts : list (string * list Z)) (symms : list vsymm) (l : list vdecl) : option (list vsymm) :=
  match l with
  | [] => Some symms
  | d :: l' => match add_variables consts symms d with Some symms' => read_vdecls consts symms' l' | None => None end
  end.

(** xnsys.cc:178-192 *)
Definition refsz_step (refsz : nat) (sz : nat) : nat :=
  let refsz := if (refsz =? 1) && (refsz <? sz) then sz else refsz in
  if (1 <? sz) && (sz <? refsz) then sz else refsz.
Definition refsz_of (sizes : list nat) : nat := fold_left refsz_step sizes 1.
(** xnsys.cc:193: pairs in lexicographic order *)
Definition pair_le (a b : nat * nat) : bool := (fst a <? fst b) || ((fst a =? fst b) && (snd a <=? snd b)).
Fixpoint insert_pair (a : nat * nat) (l : list (nat * nat)) : list (nat * nat) :=
  match l with
  | [] => [a]
  | b :: l' => if pair_le a b then a :: l else b :: insert_pair a l'
  end.
Definition sort_pairs (l : list (nat * nat)) : list (nat * nat) := fold_right insert_pair [] l.
Definition ceil_quot (a b : nat) : nat := (a + b - 1) / b.

(** Net::vbls (array and member of each), and VblSymm::membs of the arrays (the variable of each member; 0 for a null pointer) *)
Record vtable := mkVtable { vt_vbls : list (nat * nat); vt_membs : list (list nat) }.
(** xnsys.cc:142-147 *)
Definition commit_variable (a : nat) (T : vtable) (j : nat) : vtable :=
  mkVtable (vt_vbls T ++ [(a, j)]) (upd (vt_membs T) a (upd (nth a (vt_membs T) []) j (length (vt_vbls T)))).
(** xnsys.cc:194-202.  [sizes]: the pairs of size and array, sorted. *)
Definition commit_cut (refsz cut_i : nat) (T : vtable) (p : nat * nat) : vtable :=
  let stride := ceil_quot (fst p) refsz in
  fold_left (commit_variable (snd p)) (filter (fun j => j <? fst p) (seq (cut_i * stride) stride)) T.
Definition commit_variables (sizes : list nat) : vtable :=
  fold_left (fun T cut_i => fold_left (commit_cut (refsz_of sizes) cut_i) (sort_pairs (combine sizes (seq 0 (length sizes)))) T)
            (seq 0 (refsz_of sizes)) (mkVtable [] (map (repeat 0) sizes)).

(** What the statements see: the domains and roles of the variables, and the variables of each array (vbl_map: later arrays win) *)
Definition table_doms (symms : list vsymm) (T : vtable) : list nat := map (fun aj => nth (fst aj) (map vs_dom symms) 0) (vt_vbls T).
Definition table_roles (symms : list vsymm) (T : vtable) : list role := map (fun aj => nth (fst aj) (map vs_role symms) Direct) (vt_vbls T).
Definition table_arrays (symms : list vsymm) (T : vtable) : list (string * list nat) :=
  fold_left (fun acc p => set_key (fst p) (snd p) acc) (combine (map vs_name symms) (vt_membs T)) [].

(** ** Kinds of processes *)
(** prot-xfile.leg:164-182: "process P[idx < num] { let ..; read: ..; }" or "process P[idx in map x < num : e] { .. }" *)
Record kdecl := mkKdecl { kd_idx : string; kd_num : sexp; kd_map : option (string * sexp); kd_lets : list (string * sexp); kd_vbls : list pdecl }.
Inductive pentry := General (st : stmt) | Kind (k : kdecl) (body : list stmt).

Section Head.
Variables (ds : list nat) (roles : list role) (F : file).
(** prot-xfile.cc:90-103, xnsys.cc:220 *)
Definition indices_of (k : kdecl) (n : nat) : option (list Z) :=
  match kd_map k with
  | None => Some (map Z.of_nat (seq 0 n))
  | Some (x, e) => all_parsed (map (fun i => eval_int ds F None (set_key x (Z.of_nat i) []) e) (seq 0 n))
  end.
(** prot-xfile.cc:165-187 *)
Definition add_let (idx : string) (zs : list Z) (lets : list (string * list Z)) (xe : string * sexp) : option (list (string * list Z)) :=
  option_map (fun vals => set_key (fst xe) vals lets)
    (all_parsed (map (fun iz => eval_int ds F (Some (mkUse lets [] (fst iz) [])) (set_key idx (snd iz) []) (snd xe))
                     (combine (seq 0 (length zs)) zs))).
Fixpoint read_lets (idx : string) (zs : list Z) (lets : list (string * list Z)) (l : list (string * sexp)) : option (list (string * list Z)) :=
  match l with
  | [] => Some lets
  | xe :: l' => match add_let idx zs lets xe with Some lets' => read_lets idx zs lets' l' | None => None end
  end.
(** The blocks of the kind (prot-xfile.cc:338, 350-352) *)
Definition decl_shape (d : pdecl) : decl :=
  match d with
  | PAccess (t, x, _) => Plain (array_access ds roles F t x)
  | PLinks _ vals vs => Symmetric (length vals) (map (fun r => array_access ds roles F (fst (fst r)) (snd (fst r))) vs)
  end.
(** xnsys.cc:208-226 and xnpc.hh:180-189: a process of kind [q] with nothing said about it yet *)
Definition new_process (q : nat) (vbls : list nat) : process := mkProcess q vbls (Cst true) (Cst false) (Cst false) (Cst false) (Cst false).
(** The head of a process definition; [ks] and [ps] are the kinds and the processes there are. *)
Definition read_head (ks : list pcsymm) (ps : list process) (k : kdecl) : option pc_head :=
  match eval_nat ds F None [] (kd_num k) with
  | None => None
  | Some n =>
      match indices_of k n with
      | None => None
      | Some zs =>
          match read_lets (kd_idx k) zs [] (kd_lets k), all_slots (kd_vbls k) with
          | Some lets, Some sls =>
              match add_accesses ds F (kd_idx k) lets [] (map (fun iz => mkDraft (fst iz) (snd iz) []) (combine (seq 0 n) zs)) sls with
              | None => None
              | Some drafts =>
                  let kind := {| accs := map (slot_access ds roles F) sls; symms := decl_symms 0 (map decl_shape (kd_vbls k)) |} in
                  let mbs := map (fun d => mkMembr (new_process (length ks) (d_vbls d)) (d_number d) (d_index d)) drafts in
                  Some (mkHead (mkNetwork ds roles (ks ++ [kind]) (ps ++ map m_pc mbs)) (kd_idx k) lets mbs)
              end
          | _, _ => None
          end
      end
  end.
End Head.

(** ** The whole file *)
Section Entries.
Variables (consts : list (string * list Z)) (arrays : list (string * list nat)) (ds : list nat) (roles : list role).
(** The system, the kinds of processes, and the entries with the heads as they were read (DeclModel.v) *)
Fixpoint read_entries (Y : sys_state) (ks : list pcsymm) (ps : list process) (l : list pentry) : option (sys_state * list pc_state * list item) :=
  match l with
  | [] => Some (Y, [], [])
  | General st :: l' =>
      match read_outside consts arrays ds Y st with
      | None => None
      | Some Y' => option_map (fun r => (fst r, Outside st :: snd r)) (read_entries Y' ks ps l')
      end
  | Kind k body :: l' =>
      match read_head ds roles (file_of consts arrays Y) ks ps k with
      | None => None
      | Some h =>
          match read_body consts arrays h (Y, new_kind h) body with
          | None => None
          | Some (Y', P) =>
              option_map (fun r => (fst (fst r), P :: snd (fst r), Inside h body :: snd r))
                (read_entries Y' (kinds (h_net h)) (ps ++ map (fun m => m_pc (mb_pc m)) (k_membs P)) l')
          end
      end
  end.
End Entries.

Record ptext := mkPtext { pt_consts : list cdecl; pt_vbls : list vdecl; pt_entries : list pentry }.
Record presult := mkPresult { r_consts : list (string * list Z); r_symms : list vsymm; r_table : vtable; r_sys : sys_state; r_kinds : list pc_state; r_items : list item }.
Definition r_doms (R : presult) : list nat := table_doms (r_symms R) (r_table R).
Definition r_roles (R : presult) : list role := table_roles (r_symms R) (r_table R).
Definition r_arrays (R : presult) : list (string * list nat) := table_arrays (r_symms R) (r_table R).
(** prot-xfile.leg:23-40: at least one variable declaration; they are committed when all are read *)
Definition read_text (given : list (string * list Z)) (t : ptext) : option presult :=
  match read_consts given (pt_consts t) with
  | None => None
  | Some consts =>
      match pt_vbls t with
      | [] => None
      | _ :: _ =>
          match read_vdecls consts [] (pt_vbls t) with
          | None => None
          | Some symms =>
              let T := commit_variables (map vs_size symms) in
              match read_entries consts (table_arrays symms T) (table_doms symms T) (table_roles symms T) new_sys [] [] (pt_entries t) with
              | None => None
              | Some (Y, Ps, items) => Some (mkPresult consts symms T Y Ps items)
              end
          end
      end
  end.
