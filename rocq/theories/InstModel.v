(** The instances a command line asks for.

    Models
      - /repo/src/opt.cc:135-176       handle_param_arg,
      - /repo/src/opt.cc:178-234       parse_NatMap (after the text is cut into numbers),
      - /repo/src/opt.cc:236-271       push_instances,
      - /repo/src/opt.cc:273-325       parse_param,
      - /repo/src/opt.cc:417-456       the options -def, -param and -x of protocon_options_rec,
      - /repo/src/opt.cc:781-783       protocon_options: the instances when there is no -param,
      - /repo/src/xnspec.hh:67-107     NatMap,
      - /repo/src/prot-xfile.leg:735-744, /repo/src/prot-ofile.cc:10-19  what is read and written of it.
    Not modelled: how the words of the command line are found (a word is an option of the type below), all options that do not concern
    instances, and files of arguments (-x-args).  An int is an integer without a bound. *)
From Coq Require Import String List ZArith Bool.
From Verif Require Import ExprModel.
Import ListNotations.
Local Open Scope string_scope.
Local Open Scope list_scope.

(** ** Values *)
(** xnspec.hh:67-72.  The expression is always one number or a list of numbers (opt.cc:219-231, xnspec.hh:85): [nm_shown] are these numbers. *)
Record natmap := mkNatmap { nm_membs : list Z; nm_shown : list Z; nm_scalar : bool }.
(** xnspec.hh:73 *)
Definition natmap0 : natmap := mkNatmap [] [] true.
(** xnspec.hh:81-87 *)
Definition natmap_set (x : Z) : natmap := mkNatmap [x] [x] true.

(** The text of a value: whether it begins with "(", and its numbers: those around "..", or all. *)
Inductive vnums := VRange (begval endval : Z) | VList (l : list Z).
Record vtext := mkVtext { vt_paren : bool; vt_nums : vnums }.

(** opt.cc:207-210: from [val] on, while it is not [stop]; [n] is enough steps *)
Fixpoint count_to (n : nat) (val stop diff : Z) : list Z :=
  match n with
  | O => []
  | S n' => if Z.eqb val stop then [] else val :: count_to n' (val + diff)%Z stop diff
  end.
Definition range_membs (begval endval : Z) : list Z :=
  let diff := if Z.ltb begval endval then 1%Z else (-1)%Z in
  count_to (S (Z.abs_nat (endval - begval))) begval (endval + diff)%Z diff.
(** opt.cc:178-234 *)
Definition parse_natmap (v : vtext) : option natmap :=
  match vt_nums v with
  | VRange b e => let l := range_membs b e in Some (mkNatmap l l (negb (vt_paren v)))
  | VList l =>
      if (0 <? List.length l)%nat || vt_paren v then Some (mkNatmap l l (negb (vt_paren v))) else None
  end.

(** ** Options of one instance *)
(** stabilization.hh (StabilizationOpt), opt.hh:18-37 *)
Record popt := mkPopt {
  po_consts : list (string * natmap);   (** a std::map: sorted by name *)
  po_conflict : bool; po_partial : bool;
  po_sync : bool; po_semisync : bool; po_uniring : bool;
  po_layers : bool; po_steps : bool; po_max : nat }.
(** stabilization.hh:19-26, opt.hh:25-28.  The layers and steps are counted from the start: the two options that ask for it change nothing. *)
Definition popt0 : popt := mkPopt [] true true false false false true true 0.
Definition with_consts (cs : list (string * natmap)) (o : popt) : popt :=
  mkPopt cs (po_conflict o) (po_partial o) (po_sync o) (po_semisync o) (po_uniring o) (po_layers o) (po_steps o) (po_max o).

(** std::map::operator[]: the entry of [k] gets the value [v] *)
Fixpoint put (k : string) (v : natmap) (cs : list (string * natmap)) : list (string * natmap) :=
  match cs with
  | [] => [(k, v)]
  | (k', v') :: cs' =>
      match String.compare k k' with
      | Eq => (k, v) :: cs'
      | Lt => (k, v) :: cs
      | Gt => (k', v') :: put k v cs'
      end
  end.

(** opt.cc:135-176 *)
Inductive setting := NoConflict | Synchronous | SemiSynchronous | Uniring | CountLayers | CountSteps | MaxNlayers (n : nat).
Definition handle_param_arg (s : setting) (o : popt) : popt :=
  match o with
  | mkPopt cs c p sy se u la st m =>
      match s with
      | NoConflict => mkPopt cs false p sy se u la st m
      | Synchronous => mkPopt cs c p true se u la st m
      | SemiSynchronous => mkPopt cs c p true true u la st m
      | Uniring => mkPopt cs c p sy se true la st m
      | CountLayers => mkPopt cs c p sy se u true st m
      | CountSteps => mkPopt cs c p sy se u true true m
      | MaxNlayers n => mkPopt cs c p sy se u la st n
      end
  end.
Definition no_partial (o : popt) : popt :=
  match o with mkPopt cs c _ sy se u la st m => mkPopt cs c false sy se u la st m end.
Definition define (k : string) (v : vtext) (o : popt) : option popt :=
  option_map (fun m => with_consts (put k m (po_consts o)) o) (parse_natmap v).

(** ** One instance for each combination of values *)
(** opt.cc:242-253: Table::resize(1) of a scalar *)
Definition cut (m : natmap) : natmap := if nm_scalar m then mkNatmap (firstn 1 (nm_membs m)) (nm_shown m) true else m.
Definition first_instance (d : popt) : popt := with_consts (map (fun p => (fst p, cut (snd p))) (po_consts d)) d.
(** opt.cc:262-266: [these] are the instances from begidx to endidx *)
Definition set_in_all (k : string) (x : Z) (these : list popt) : list popt :=
  map (fun o => with_consts (put k (natmap_set x) (po_consts o)) o) these.
(** opt.cc:255-270: what is there from begidx on, after the entry [p] *)
Definition push_values (these : list popt) (p : string * natmap) : list popt :=
  if nm_scalar (snd p) then these ++ flat_map (fun x => set_in_all (fst p) x these) (tl (nm_membs (snd p))) else these.
Definition push_instances (instances : list popt) (d : popt) : list popt :=
  instances ++ fold_left push_values (po_consts d) [first_instance d].

(** ** The command line *)
(** opt.cc:298-317: what may stand between "[" and "]"; a word that is not understood is passed over *)
Inductive pword := PDef (k : string) (v : vtext) | PSet (s : setting) | PNoPartial | PUnknown (w : string).
Inductive word := WDef (k : string) (v : vtext) | WSet (s : setting) | WParam (k : string) (v : vtext) | WParams (l : list pword) | WFile.

Fixpoint param_words (o : popt) (l : list pword) : option popt :=
  match l with
  | [] => Some o
  | PDef k v :: l' => match define k v o with Some o' => param_words o' l' | None => None end
  | PSet s :: l' => param_words (handle_param_arg s o) l'
  | PNoPartial :: l' => param_words (no_partial o) l'
  | PUnknown _ :: l' => param_words o l'
  end.

(** ProtoconOpt::instance_def, ProtoconOpt::instances, ProtoconFileOpt::constant_map *)
Record copts := mkCopts { co_def : popt; co_insts : list popt; co_file : list (string * natmap) }.
Definition copts0 : copts := mkCopts popt0 [] [].

Definition read_word (c : copts) (w : word) : option copts :=
  match w with
  | WDef k v => option_map (fun d => mkCopts d (co_insts c) (co_file c)) (define k v (co_def c))
  | WSet s => Some (mkCopts (handle_param_arg s (co_def c)) (co_insts c) (co_file c))
  | WParam k v => option_map (fun d => mkCopts (co_def c) (push_instances (co_insts c) d) (co_file c)) (define k v (co_def c))
  | WParams l => option_map (fun d => mkCopts (co_def c) (push_instances (co_insts c) d) (co_file c)) (param_words (co_def c) l)
  | WFile => Some (mkCopts (co_def c) (co_insts c) (po_consts (co_def c)))
  end.
Fixpoint read_words (c : copts) (l : list word) : option copts :=
  match l with
  | [] => Some c
  | w :: l' => match read_word c w with Some c' => read_words c' l' | None => None end
  end.
(** opt.cc:781-783 *)
Definition read_line (l : list word) : option copts :=
  match read_words copts0 l with
  | None => None
  | Some c =>
      Some (match co_insts c with
            | [] => mkCopts (co_def c) (push_instances [] (co_def c)) (co_file c)
            | _ :: _ => c
            end)
  end.

(** ** What a file sees and what is written of it *)
(** prot-xfile.leg:735-744: the constants a file is read with ([read_text] of HeadModel.v) *)
Definition given_consts (cs : list (string * natmap)) : list (string * list Z) := map (fun p => (fst p, nm_membs (snd p))) cs.
(** prot-ofile.cc:10-19: "constant N := 3;" or "constant N := (3,4,5);".  Read again, these are the numbers of the constant. *)
Definition written_consts (cs : list (string * natmap)) : list (string * list Z) := map (fun p => (fst p, nm_shown (snd p))) cs.
