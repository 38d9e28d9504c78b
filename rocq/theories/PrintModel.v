(** The actions of a solution in the output file.

    Models
      - /repo/src/prot-ofile.cc:168-204     oput_protocon_pc_act of an action,
      - /repo/src/prot-ofile.cc:206-273     oput_protocon_pc_acts: the puppet actions, without espresso,
      - /repo/src/prot-ofile.cc:424-431     the actions that are written,
      - /repo/src/xnpc.cc:7-26              puppet_self_loop_ck,
      - /repo/src/xnpc.hh:146, 227-230      the order of actions, vbl_name,
      - /repo/src/prot-xfile.leg:124-128    reading of puppet actions. *)
From Coq Require Import String List Arith Bool ZArith.
From Verif Require Import FmlaModel IntModel ExprModel ActModel NetModel CmdModel ParseModel AccessModel.
Import ListNotations.
Local Open Scope list_scope.

Section Text.
Variable K : pcsymm.
(** The accesses of the kind, with their names. *)
Variable sls : list slot.
Definition slot0 : slot := mkSlot ReadAccess "" (SNat 0) (SNat 0).
(** xnpc.hh:227-230 *)
Definition vbl_name (i : nat) : sexp := SAref (sl_array (nth i sls slot0)) (sl_text (nth i sls slot0)).

(** xnpc.cc:7-26 *)
Definition self_loop_at (v : list nat) (w : nat) : bool :=
  if synt_writeonly_ck (waccess K w)
  then negb (puppet_ck (waccess K w)) || (assign K v w =? a_dom (waccess K w))
  else (aguard K v w =? assign K v w) && negb (random_write_ck (waccess K w)).
Definition puppet_self_loop_ck (v : list nat) : bool := forallb (self_loop_at v) (seq 0 (nw K)).

(** prot-ofile.cc:174-185 *)
Fixpoint joined (l : list (list tok)) : list tok :=
  match l with
  | [] => []
  | x :: l' => match l' with [] => x | _ :: _ => x ++ TAnd :: joined l' end
  end.
Definition guard_text (v : list nat) : list tok :=
  joined (map (fun i => print (vbl_name i) ++ [TCmp CEq; TNat (guard v i)])
              (filter (fun i => synt_read_ck (acc K i)) (seq 0 (nr K)))).
(** prot-ofile.cc:188-202 *)
Definition assign_text (v : list nat) (w : nat) : list tok :=
  if puppet_self_loop_ck v && negb (pure_shadow_ck (waccess K w)) then []
  else if a_dom (waccess K w) =? assign K v w then []
  else print (vbl_name (nth w (wmap K) 0)) ++ TSet ::
       (if random_write_ck (waccess K w) then [TWild; TSemi] else [TNat (assign K v w); TSemi]).
Definition action_text (v : list nat) : list tok :=
  TLp :: guard_text v ++ TTo :: concat (map (assign_text v) (seq 0 (nw K))) ++ [TRp].
End Text.

(** prot-ofile.cc:424-431: sorted by values (xnpc.hh:146).  Between actions of different kinds the order does not
    matter. *)
Fixpoint insert_act (a : act) (l : list act) : list act :=
  match l with
  | [] => [a]
  | b :: l' => if lex_lt (vals b) (vals a) then b :: insert_act a l' else a :: l
  end.
Definition sort_acts (l : list act) : list act := fold_right insert_act [] l.
Definition written_acts (net : list pcsymm) (actions : list nat) : list act :=
  sort_acts (map (act_of net) (flat_map (represented_actions net) actions)).
(** prot-ofile.cc:264-268: the texts for the kind numbered [k] *)
Definition kind_texts (net : list pcsymm) (k : nat) (sls : list slot) (actions : list nat) : list (list tok) :=
  map (fun a => action_text (nth k net pc0) sls (vals a)) (filter (fun a => act_pc a =? k) (written_acts net actions)).

Section Read.
Variable N : network.
Variable F : file.
Variable idx_name : string.
Variable lets : list (string * list Z).
Variable preds : list (string * list fmla).
(** The predicates that the text knows *)
Variable names : list string.
(** prot-xfile.leg:124-128, prot-xfile.cc:560-631: one action after the other *)
Fixpoint read_puppets (texts : list (list tok)) (mbs : list membr) (T : totals) : option (list membr * totals) :=
  match texts with
  | [] => Some (mbs, T)
  | ts :: texts' =>
      match read_action names ts with
      | None => None
      | Some a => match add_action N F idx_name lets preds mbs Puppet a T with Some (mbs', T') => read_puppets texts' mbs' T' | None => None end
      end
  end.
End Read.
