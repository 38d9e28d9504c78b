(** The translator of ring protocols and the text forms it reads and writes.

    Models
      - /repo/src/uni/xlate.cc:17-168       main, without -o-graphviz and -o-svg-livelock (the search for the
                                            livelock that the picture shows is livelock_semick, LivelockModel.v),
      - /repo/src/uni/unifile.cc:140-159    xget_triple,
      - /repo/src/uni/unifile.cc:232-264    xget_list, oput_list,
      - /repo/src/uni/unifile.cc:343-372    oput_protocon,
      - the reading of that text by the main tool: the declarations of accesses and the actions, as in
        ParseModel.v, AccessModel.v, CmdModel.v and PrintModel.v.
    Numbers are not spelled out: a line of a list is the list of the numbers at its start (xget_uint_XFile is
    external), and the text of a protocol file is a list of tokens, as in ParseModel.v.  *)
From Coq Require Import String Ascii List Arith Bool ZArith.
From Verif Require Import ParseModel AccessModel PrintModel.
From Verif Require Import FmlaModel IntModel ExprModel ActModel NetModel CmdModel UniModel.
Import ListNotations.
Local Open Scope string_scope.
Local Open Scope list_scope.
Local Open Scope nat_scope.

(** ** Lists of actions *)
(** unifile.cc:140-159: [None] is "return false"; the outer [None] is failout_sysCx.  UniAct(a, b, c) narrows to
    bytes (uniact.hh:7-21); what follows three numbers is not looked at. *)
Definition xget_triple (line : list nat) : option (option UniAct) :=
  match line with
  | [] => Some None
  | a :: b :: c :: _ => Some (Some (byte a, byte b, byte c))
  | _ => None
  end.
(** unifile.cc:236-238: up to the first line without numbers, or the end *)
Fixpoint xget_triples (lines : list (list nat)) : option (list UniAct) :=
  match lines with
  | [] => Some []
  | l :: lines' =>
      match xget_triple l with
      | None => None
      | Some None => Some []
      | Some (Some act) => option_map (cons act) (xget_triples lines')
      end
  end.
(** unifile.cc:232-252: the actions and the domain size (a byte), [None] if the program ends *)
Definition xget_list (lines : list (list nat)) : option (list UniAct * nat) :=
  match xget_triples lines with
  | None | Some [] => None
  | Some acts => Some (acts, domsz_of_acts acts)
  end.
(** unifile.cc:254-264 *)
Definition oput_list (acts : list UniAct) : list (list nat) := map (fun act : UniAct => let '(a, b, c) := act in [a; b; c]) acts.

(** ** Protocol files *)
(** What the text has between the braces of the process, and the number behind "constant M :=" *)
Record prot_text := mkProtText { pt_domsz : nat; pt_decls : list tok; pt_acts : list (list tok) }.
(** unifile.cc:362-366 *)
Definition act_text (act : UniAct) : list tok :=
  let '(a, b, c) := act in
  [TLp; TId "x"; TLb; TId "i"; TMinus; TNat 1; TRb; TCmp CEq; TNat a; TAnd; TId "x"; TLb; TId "i"; TRb; TCmp CEq; TNat b;
   TTo; TId "x"; TLb; TId "i"; TRb; TSet; TNat c; TSemi; TRp].
(** unifile.cc:343-372 *)
Definition oput_protocon (acts : list UniAct) (domsz : nat) : prot_text :=
  let domsz := if domsz =? 0 then domsz_of_acts acts else domsz in
  mkProtText domsz
    [TWord "read:"; TId "x"; TLb; TId "i"; TMinus; TNat 1; TRb; TSemi; TWord "write:"; TId "x"; TLb; TId "i"; TRb; TSemi; TWord "puppet:"]
    (map act_text acts).

(** Reading it with N = [n] (the number in the text is 2; -def N gives another one):
    "variable x[N] < M;" makes the variables 0, .., n-1, "process P[i < N]" the processes with these indices
    (prot-xfile.cc:61-186 in outline), then the accesses and the actions are added. *)
Section Read.
Variable n : nat.
Variable t : prot_text.
Definition prot_doms : list nat := repeat (pt_domsz t) n.
Definition prot_roles : list role := repeat Direct n.
Definition prot_file : file :=
  mkFile [("N", [Z.of_nat n]); ("M", [Z.of_nat (pt_domsz t)])] [("x", seq 0 n)] [].
Definition plain_process (vbls : list nat) : process := mkProcess 0 vbls (Cst true) (Cst false) (Cst false) (Cst false) (Cst false).
Definition prot_net (k : pcsymm) (ps : list process) : network := mkNetwork prot_doms prot_roles [k] ps.
Definition read_prot : option (network * totals) :=
  match all_slots (fst (read_vbls [] (pt_decls t))) with
  | None => None
  | Some sls =>
      match add_accesses prot_doms prot_file "i" [] [] (map (fun i => mkDraft i (Z.of_nat i) []) (seq 0 n)) sls with
      | None => None
      | Some drafts =>
          let k := {| accs := map (slot_access prot_doms prot_roles prot_file) sls; symms := [] |} in
          let mbs := map (fun d => mkMembr (plain_process (d_vbls d)) (d_number d) (d_index d)) drafts in
          match read_puppets (prot_net k (map m_pc mbs)) prot_file "i" [] [] [] (pt_acts t) mbs (mkTotals (Cst false) (Cst false)) with
          | None => None
          | Some (mbs', T) => Some (prot_net k (map m_pc mbs'), T)
          end
      end
  end.
End Read.

(** ** xlate *)
Inductive xlate_input := XId (s : list ascii) | XList (lines : list (list nat)).
Record xlate_output := mkXlate { x_id : list ascii; x_list : list (list nat); x_prot : prot_text }.
(** xlate.cc:36-128: the actions, the table and the domain size.  [override] is the argument of -domsz, 0 if there
    is none; [be] as in UniModel.v.  The table holds bytes: so is the domain size in it that means "no action".
    [None]: it reports an error. *)
Definition xlate_protocol (be : bool) (input : xlate_input) (override : nat) : option (list UniAct * list nat * nat) :=
  match input with
  | XList lines =>
      match xget_list lines with
      | None => None
      | Some (acts, domsz) =>
          if domsz =? 0 then None
          else if (0 <? override) && (override <? domsz) then None
          else let domsz := if 0 <? override then override else domsz in
               Some (acts, map byte (ppgfun_of_acts acts domsz), domsz)
      end
  | XId s =>
      if 0 <? override then None
      else match xget_b64_ppgfun be s with
           | None => None
           | Some (domsz, ppgfun) => if domsz =? 0 then None else Some (actions_of_ppgfun ppgfun 0, ppgfun, domsz)
           end
  end.
(** xlate.cc:150-165: -o-id, -o-list, -o-prot *)
Definition xlate (be : bool) (input : xlate_input) (override : nat) : option xlate_output :=
  match xlate_protocol be input override with
  | None => None
  | Some (acts, ppgfun, domsz) => Some (mkXlate (oput_b64_ppgfun be ppgfun domsz) (oput_list acts) (oput_protocon acts domsz))
  end.
