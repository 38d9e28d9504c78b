(** Actions as a table of bits, and the smaller table read back.

    Models
      - /repo/src/pla.cc:15-21     oput_pla_val,
      - /repo/src/pla.cc:23-40     oput_pla_act,
      - /repo/src/pla.cc:42-87     oput_pla_pc_acts,
      - /repo/src/pla.cc:89-107    oput_pla_file,
      - /repo/src/pla.cc:124-183   oput_protocon_pc_act of a line of bits (the same text is in prot-ofile.cc:110-166),
      - /repo/src/pla.cc:186-242   oput_protocon_pc_acts_espresso_spawn.
    The program espresso is not modelled: the lines that it answers are an argument.  A field of a line is the list of its
    bits, a line the list of its fields; other characters than 0 and 1, which fail a Claim, are left out.  Names in the comment line,
    and the order of the kinds of processes in the file are left out. *)
From Coq Require Import String List Arith Bool ZArith.
From Verif Require Import ActModel FmlaModel IntModel ExprModel NetModel CmdModel ParseModel AccessModel PrintModel.
Import ListNotations.
Local Open Scope list_scope.

Definition bits := list bool.
(** pla.cc:15-21 *)
Definition pla_val (j n : nat) : bits := map (fun i => i =? j) (seq 0 n).

Section Kind.
Variable K : pcsymm.
(** pla.cc:28-29, 49, 57-58: the variables that have a column for the guard *)
Definition guard_cols : list nat := filter (fun i => negb (pure_shadow_ck (acc K i))) (seq 0 (nr K)).
(** pla.cc:23-40 *)
Definition pla_act (v : list nat) : list bits :=
  map (fun i => pla_val (guard v i) (a_dom (acc K i))) guard_cols ++
  map (fun w => pla_val (assign K v w) (a_dom (waccess K w))) (seq 0 (nw K)).
(** pla.cc:54-64: the numbers after ".mv n 0" *)
Definition pla_mv : list nat :=
  map (fun i => a_dom (acc K i)) guard_cols ++ map (fun w => a_dom (waccess K w)) (seq 0 (nw K)).

Variable sls : list slot.
(** pla.cc:141-149: the values with a 1 *)
Definition ones (f : bits) : list nat := filter (fun m => nth m f false) (seq 0 (length f)).
(** pla.cc:175-179 *)
Fixpoint either (l : list (list tok)) : list tok :=
  match l with
  | [] => []
  | x :: l' => match l' with [] => x | _ :: _ => x ++ TOr :: either l' end
  end.
(** pla.cc:160-180: no text, or that of one clause.  [m - 1] is only looked at for [m] above 0. *)
Definition clause_text (x : sexp) (f : bits) : option (list tok) :=
  let vals := ones f in let m := length f in
  if length vals =? m then None
  else Some
    (if (length vals =? m - 1) && (2 <? m)
     then match find (fun j => negb (existsb (Nat.eqb j) vals)) (seq 0 m) with
          | Some j => print x ++ [TCmp CNe; TNat j]
          | None => []
          end
     else if 1 <? length vals
     then TLp :: either (map (fun j => print x ++ [TCmp CEq; TNat j]) vals) ++ [TRp]
     else either (map (fun j => print x ++ [TCmp CEq; TNat j]) vals)).
(** pla.cc:151-158.  [None]: the Claim fails. *)
Definition set_text (x : sexp) (f : bits) : option (list tok) :=
  match ones f with [j] => Some (print x ++ [TSet; TNat j; TSemi]) | _ => None end.
Definition keep_some {A} (l : list (option A)) : list A := flat_map (fun o => match o with Some a => [a] | None => [] end) l.
Fixpoint all_some {A} (l : list (option A)) : option (list A) :=
  match l with
  | [] => Some []
  | o :: l' => match o, all_some l' with Some a, Some r => Some (a :: r) | _, _ => None end
  end.
(** pla.cc:124-183.  [None]: a token is missing or a Claim fails.  The arrow is written before the first assignment. *)
Definition cube_text (c : list bits) : option (list tok) :=
  let ng := length guard_cols in
  if length c <? ng + nw K then None
  else match all_some (map (fun w => set_text (vbl_name sls (nth w (wmap K) 0)) (nth (ng + w) c [])) (seq 0 (nw K))) with
       | None => None
       | Some sets => Some (TLp :: joined (keep_some (map (fun g => clause_text (vbl_name sls (nth g guard_cols 0)) (nth g c [])) (seq 0 ng))) ++
           (if nw K =? 0 then [] else [TTo]) ++ concat sets ++ [TRp])
       end.
(** pla.cc:225-239 *)
Definition cubes_text (cs : list (list bits)) : option (list (list tok)) := all_some (map cube_text cs).
End Kind.

(** pla.cc:78-84, 89-105: the lines for the kind numbered [k] *)
Definition pla_rows (net : list pcsymm) (k : nat) (actions : list nat) : list (list bits) :=
  map (fun a => pla_act (nth k net pc0) (vals a)) (filter (fun a => act_pc a =? k) (written_acts net actions)).
