(** The Promela model of a solution.

    Models
      - /repo/src/xnsys.cc:415-480      Net::unroll_action (include_shadow = false),
      - /repo/src/promela.cc:7-36       OPutPromelaVblRef,
      - /repo/src/promela.cc:38-58      OPutPromelaAction,
      - /repo/src/promela.cc:60-71      OPutPromelaSelect,
      - /repo/src/promela.cc:73-140     OPutPromelaPc,
      - /repo/src/promela.cc:147-215    OPutPromelaModel up to the processes (the rest is in comments
                                        of the printed file),
    and how SPIN runs what is printed.

    The printed file is represented by what is variable in it.  Index expressions are lists of tokens,
    since they are copied from the protocol file and read again by another reader.  The macros of
    constants and lets have their expressions in parentheses: a macro is taken as a name that has the
    value of its expression; only those are covered whose expressions use names defined before.
    Expressions are read with + - * / % and parentheses, other operators make the reading fail here.
    Integers are assumed not to overflow.

    [T] is the network the actions belong to (sys.topology), [O] the one that is printed (otopology);
    they have the same kinds of processes. *)
From Coq Require Import String List Arith Bool ZArith.
From Verif Require Import FinLib FmlaModel IntModel ExprModel ActModel NetModel CmdModel ParseModel AccessModel PrintModel.
Import ListNotations.
Local Open Scope list_scope.

(** ** Net::unroll_action *)
Section Unroll.
Variable T : network.
Variable lw : bool.
Notation ds := (vdoms T).
(** xnsys.cc:430-439 *)
Definition unroll_reads (k : pcsymm) : list nat :=
  filter (fun i => negb (pure_shadow_ck (acc k i)) && (synt_read_ck (acc k i) || synt_writeonly_ck (acc k i))) (seq 0 (nr k)).
(** xnsys.cc:441-451; random_ck (xnspec.hh:268): a random read or write *)
Definition unroll_writes (k : pcsymm) : list nat :=
  filter (fun w => negb (random_read_ck (waccess k w) || random_write_ck (waccess k w)) && write_ck (waccess k w)
                   && negb (pure_shadow_ck (waccess k w))) (seq 0 (nw k)).
(** xnsys.cc:434, 445, 463-465, 471-473: zeros, and the values found at their places *)
Definition fill (places st : list nat) (l : list nat) : list nat :=
  fold_left (fun l ix => upd l (fst ix) (snd ix)) (combine places st) l.
Definition filled (k : pcsymm) (pre img : list nat) : list nat :=
  fill (unroll_reads k) pre (repeat 0 (nr k)) ++ fill (unroll_writes k) img (repeat 0 (nw k)).
Definition unroll_rids (p : process) : list nat := map (rvbl p) (unroll_reads (kind_of T p)).
Definition unroll_wids (p : process) : list nat := map (wvbl T p) (unroll_writes (kind_of T p)).
(** xnsys.cc:467-475.  [None]: out of fuel *)
Fixpoint img_loop (fuel : nat) (p : process) (img_pf : fmla) : option (list (list nat)) :=
  match fuel with
  | 0 => None
  | S fuel' =>
      if sat_ck ds img_pf then
        match state_of_PFmla ds img_pf (unroll_wids p) with
        | None => None
        | Some img_state => option_map (cons img_state) (img_loop fuel' p (nimp_PFmla img_pf (of_state ds img_state (unroll_wids p))))
        end
      else Some []
  end.
(** xnsys.cc:457-477 *)
Fixpoint pre_loop (fuel : nat) (p : process) (pc_xn : fmla) : option (list (list nat)) :=
  match fuel with
  | 0 => None
  | S fuel' =>
      if sat_ck ds pc_xn then
        match state_of_PFmla ds pc_xn (unroll_rids p) with
        | None => None
        | Some pre_state =>
            let pre_pf := of_state ds pre_state (unroll_rids p) in
            match img_loop fuel' p (img1_PFmla ds pc_xn pre_pf), pre_loop fuel' p (nimp_PFmla pc_xn pre_pf) with
            | Some imgs, Some rest => Some (map (filled (kind_of T p) pre_state) imgs ++ rest)
            | _, _ => None
            end
        end
      else Some []
  end.
(** xnsys.cc:415-428 *)
Definition unroll_action (fuel : nat) (actid : nat) : option (list act) :=
  let k := action_pcsymm_index (kinds T) actid in
  match representative T k with
  | None => Some []
  | Some ip =>
      option_map (map (fun v => {| act_pc := k; vals := v |}))
        (pre_loop fuel (snd ip) (and_PFmla (represented_xns_of_pc T lw actid ip) (p_assume (snd ip))))
  end.
(** promela.cc:203-207 *)
Fixpoint unroll_all (fuel : nat) (actions : list nat) : option (list act) :=
  match actions with
  | [] => Some []
  | a :: actions' => match unroll_action fuel a, unroll_all fuel actions' with Some l, Some l' => Some (l ++ l') | _, _ => None end
  end.
End Unroll.

(** ** References to variables, promela.cc:7-36 *)
(** promela.cc:15-17; the first argument bounds the number of rounds *)
Fixpoint grow (n : nat) (size : nat) (m : Z) (add_val : nat) : nat :=
  match n with
  | 0 => add_val
  | S n' => if (m + Z.of_nat add_val <? 0)%Z then grow n' size m (add_val + size) else add_val
  end.
(** promela.cc:10-22: (add_val, mod_val) *)
Definition add_mod (size : nat) (membs : list Z) : nat * nat :=
  fold_left (fun am m =>
    let '(add_val, mod_val) := am in
    let '(add_val, mod_val) := if (m <? 0)%Z then (grow (Z.to_nat (- m)) size m add_val, size) else (add_val, mod_val) in
    if (Z.of_nat size <=? m)%Z then (add_val, size) else (add_val, mod_val)) membs (0, 0).
(** promela.cc:23-35 *)
Definition OPutPromelaVblRef (name : string) (size : nat) (membs : list Z) (index : list tok) : list tok :=
  let '(add_val, mod_val) := add_mod size membs in
  TId name :: TLb :: (if 0 <? mod_val then [TLp] else []) ++ index ++
  (if 0 <? mod_val then (if 0 <? add_val then [TPlus; TNat add_val] else []) ++ [TRp; TMod; TNat mod_val] else []) ++ [TRb].

(** ** The printed file *)
(** An alternative of a process: references with the values tested, and with the values assigned *)
Record popt := mkPopt { o_guard : list (list tok * nat); o_assign : list (list tok * nat) }.
(** A proctype: the number of copies, what _pid is diminished by, the names of the index (and the macro for _pid and the
    expression, if there is an index map), the lets, the alternatives *)
Record proctype := mkProctype { t_copies : nat; t_offset : nat; t_idx : string; t_idxmap : option (string * list tok);
  t_lets : list (string * list tok); t_options : list popt }.
(** The constants; the arrays with their domain sizes ("bit" if it is 2, else "byte") and lengths; the selections in
    `init` (array, index, number of values); the processes *)
Record pmodel := mkPmodel { m_consts : list (string * list tok); m_arrays : list (string * (nat * nat)); m_selects : list (string * nat * nat);
  m_proctypes : list proctype }.

(** What a protocol file says about a kind of processes: PcSymmSpec and the values of the indices of every access for every
    process (vbl_indices) *)
Record kind_text := mkKindText { k_idx : string; k_idxmap : option (string * list tok); k_lets : list (string * list tok);
  k_slots : list slot; k_indices : list (list Z) }.

Section Output.
Variables T O : network.
(** The arrays of [O] with their variables, the constants, the kinds *)
Variable arrays : list (string * list nat).
Variable consts : list (string * list tok).
Variable ks : list kind_text.

Definition members_of (x : string) : list nat := match assoc x arrays with Some l => l | None => [] end.
(** promela.cc:43-46, 51-54 *)
Definition access_ref (kt : kind_text) (i : nat) : list tok :=
  let sl := nth i (k_slots kt) slot0 in
  OPutPromelaVblRef (sl_array sl) (length (members_of (sl_array sl))) (nth i (k_indices kt) []) (print (sl_text sl)).
(** promela.cc:38-58 *)
Definition OPutPromelaAction (kt : kind_text) (k : pcsymm) (v : list nat) : popt :=
  mkPopt (map (fun i => (access_ref kt i, guard v i)) (seq 0 (nr k)))
         (map (fun w => (access_ref kt (nth w (wmap k) 0), assign k v w)) (seq 0 (nw k))).
Definition kind_text0 : kind_text := mkKindText "" None [] [] [].
(** promela.cc:73-140 *)
Definition OPutPromelaPc (acts : list act) (pcidx_offset k : nat) : list proctype :=
  let kt := nth k ks kind_text0 in
  if length (membs O k) =? 0 then []
  else if negb (existsb (fun a => act_pc a =? k) acts) then []
  else [mkProctype (length (membs O k)) pcidx_offset (k_idx kt) (k_idxmap kt) (k_lets kt)
          (map (fun a => OPutPromelaAction kt (nth k (kinds O) pc0) (vals a)) (filter (fun a => act_pc a =? k) acts))].
(** promela.cc:208-213 *)
Fixpoint output_pcs (acts : list act) (pcidx_offset : nat) (l : list nat) : list proctype :=
  match l with
  | [] => []
  | k :: l' => OPutPromelaPc acts pcidx_offset k ++ output_pcs acts (pcidx_offset + length (membs O k)) l'
  end.
(** The domain size of an array *)
Definition array_dom (l : list nat) : nat := nth (nth 0 l 0) (vdoms O) 0.
(** promela.cc:147-215 *)
Definition OPutPromelaModel (fuel : nat) (lw : bool) (actions : list nat) : option pmodel :=
  match unroll_all T lw fuel actions with
  | None => None
  | Some acts =>
      Some (mkPmodel consts (map (fun xl => (fst xl, (array_dom (snd xl), length (snd xl)))) arrays)
        (flat_map (fun xl => map (fun j => (fst xl, j, array_dom (snd xl))) (seq 0 (length (snd xl)))) arrays)
        (output_pcs (sort_acts acts) 1 (seq 0 (length (kinds T)))))
  end.
End Output.

(** ** How SPIN reads and runs it.  Not code of /repo; the rules of Promela, as far as they are used. *)
(** The value of an expression: products before sums, from left to right, division and remainder as in C *)
Section Expr.
Variable env : string -> option Z.
Section Rules.
Variable R : list tok -> option (Z * list tok).
Definition patom (ts : list tok) : option (Z * list tok) :=
  match ts with
  | TNat n :: r => Some (Z.of_nat n, r)
  | TId x :: r => option_map (fun v => (v, r)) (env x)
  | TLp :: r => match R r with Some (z, TRp :: r') => Some (z, r') | _ => None end
  | _ => None
  end.
Definition punary (ts : list tok) : option (Z * list tok) :=
  match ts with
  | TMinus :: r => match patom r with Some (z, r') => Some ((- z)%Z, r') | None => None end
  | _ => patom ts
  end.
Definition pmul (t : tok) (a b : Z) : option (option Z) :=
  match t with
  | TMul => Some (Some (a * b)%Z)
  | TDiv => Some (if (b =? 0)%Z then None else Some (Z.quot a b))
  | TMod => Some (if (b =? 0)%Z then None else Some (Z.rem a b))
  | _ => None
  end.
Definition padd (t : tok) (a b : Z) : option (option Z) :=
  match t with TPlus => Some (Some (a + b)%Z) | TMinus => Some (Some (a - b)%Z) | _ => None end.
(** The second argument bounds the number of rounds. *)
Fixpoint pchain (op : tok -> Z -> Z -> option (option Z)) (sub : list tok -> option (Z * list tok)) (n : nat) (a : Z) (ts : list tok)
  : option (Z * list tok) :=
  match n, ts with
  | S n', t :: r =>
      match op t 0%Z 1%Z with
      | None => Some (a, ts)
      | Some _ => match sub r with
                  | Some (b, r') => match op t a b with Some (Some c) => pchain op sub n' c r' | _ => None end
                  | None => None
                  end
      end
  | _, _ => Some (a, ts)
  end.
Definition pproduct (ts : list tok) : option (Z * list tok) :=
  match punary ts with Some (a, r) => pchain pmul punary (length r) a r | None => None end.
Definition psum (ts : list tok) : option (Z * list tok) :=
  match pproduct ts with Some (a, r) => pchain padd pproduct (length r) a r | None => None end.
End Rules.
Fixpoint pexpr (n : nat) (ts : list tok) : option (Z * list tok) :=
  match n with 0 => None | S n' => psum (pexpr n') ts end.
(** The value of a whole text *)
Definition pvalue (ts : list tok) : option Z :=
  match pexpr (S (length ts)) ts with Some (z, []) => Some z | _ => None end.
End Expr.

(** Names and their values; the last definition counts. *)
Definition lookup (env : list (string * Z)) (x : string) : option Z := assoc x env.
Definition define (env : list (string * Z)) (d : string * list tok) : list (string * Z) :=
  match pvalue (lookup env) (snd d) with Some z => (fst d, z) :: env | None => env end.
Definition defines (ds : list (string * list tok)) (env : list (string * Z)) : list (string * Z) := fold_left define ds env.
(** What the names mean in a process: promela.cc:97-121 *)
Definition process_env (M : pmodel) (t : proctype) (pid : nat) : option (list (string * Z)) :=
  let consts := defines (m_consts M) [] in
  let n := (Z.of_nat pid - Z.of_nat (t_offset t))%Z in
  let i := match t_idxmap t with Some (x, e) => pvalue (lookup ((x, n) :: consts)) e | None => Some n end in
  option_map (fun i => defines (t_lets t) ((t_idx t, i) :: consts)) i.

(** The processes that are started: `init` is process 0, the others follow in the order of the file. *)
Fixpoint started (pid : nat) (l : list proctype) : list (proctype * nat) :=
  match l with
  | [] => []
  | t :: l' => map (fun j => (t, pid + j)) (seq 0 (t_copies t)) ++ started (pid + t_copies t) l'
  end.

Section Run.
Variable M : pmodel.
(** The cells of the arrays, in the order of the protocol's variables: [cells] gives the variables of an array. *)
Variable arrays : list (string * list nat).
(** A reference: the variable, if the index is inside *)
Definition cell_of (env : list (string * Z)) (ref : list tok) : option nat :=
  match ref with
  | TId x :: TLb :: r =>
      match pexpr (lookup env) (S (length r)) r with
      | Some (z, [TRb]) =>
          match assoc x arrays with
          | Some l => if (0 <=? z)%Z && (z <? Z.of_nat (length l))%Z then nth_error l (Z.to_nat z) else None
          | None => None
          end
      | _ => None
      end
  | _ => None
  end.
(** What a variable of the array keeps of a value *)
Definition kept (ref : list tok) (v : nat) : nat :=
  match ref with
  | TId x :: _ => match assoc x (m_arrays M) with Some (d, _) => if d =? 2 then v mod 2 else v mod 256 | None => v end
  | _ => v
  end.
Inductive outcome := Blocked | Next (t : list nat) | Fault.
Fixpoint run_assign (env : list (string * Z)) (l : list (list tok * nat)) (s : list nat) : outcome :=
  match l with
  | [] => Next s
  | (ref, v) :: l' => match cell_of env ref with Some x => run_assign env l' (upd s x (kept ref v)) | None => Fault end
  end.
(** "a && b" does not look at b if a is false. *)
Fixpoint run_guard (env : list (string * Z)) (l : list (list tok * nat)) (s : list nat) : option bool :=
  match l with
  | [] => Some true
  | (ref, v) :: l' => match cell_of env ref with Some x => if nth x s 0 =? v then run_guard env l' s else Some false | None => None end
  end.
(** promela.cc:123-132: one alternative of the loop of a process *)
Definition run_option (t : proctype) (pid : nat) (o : popt) (s : list nat) : outcome :=
  match process_env M t pid with
  | None => Fault
  | Some env =>
      match run_guard env (o_guard o) s with
      | None => Fault
      | Some false => Blocked
      | Some true => run_assign env (o_assign o) s
      end
  end.
(** promela.cc:60-71, 166-176: `init` chooses a value for every variable. *)
Fixpoint run_init (l : list (string * nat * nat)) (choice : list nat) (s : list nat) : outcome :=
  match l, choice with
  | [], [] => Next s
  | (x, j, d) :: l', c :: choice' =>
      if c <? d then
        match assoc x arrays with
        | Some vs => match nth_error vs j with Some v => run_init l' choice' (upd s v (kept [TId x] c)) | None => Fault end
        | None => Fault
        end
      else Blocked
  | _, _ => Blocked
  end.
End Run.
