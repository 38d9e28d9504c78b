(** The ring synthesis program: from a protocol file to a protocol file.

    Models
      - /repo/src/uni/synthesize.cc:153-196  main,
      - /repo/src/uni/synthesize.cc:198-261  ReadUniRing,
    with reading as in DeclModel.v, unidirectionalRingProtocolGenerator as in SynthModel.v and oput_protocon as in
    UtextModel.v.  The lists printed for debugging are left out.  Two [option]s: the outer [None] is a loop that ran out
    of fuel (proved impossible), the inner one BailOut or failout_sysCx. *)
From Coq Require Import String List Arith Bool ZArith.
From Verif Require Import FinLib FmlaModel ActModel NetModel IntModel ExprModel CmdModel DeclModel UniModel SynthModel UtextModel.
Import ListNotations.
Local Open Scope list_scope.
Local Open Scope nat_scope.

Section Ring.
Variable N : network.
Notation ds := (vdoms N).

(** synthesize.cc:237-243: pc.rvbls[0] and pc.rvbls[1]; swapped if the first access is the written one *)
Definition rvbl_indices (p : process) : list nat :=
  if nth 0 (wmap (kind_of N p)) 0 =? 0 then [rvbl p 1; rvbl p 0] else [rvbl p 0; rvbl p 1].

(** synthesize.cc:246-258; a UniStep has bytes (uniact.hh:6, 23-32) *)
Fixpoint legit_loop (fuel : nat) (ids : list nat) (legit_pf : fmla) : option (list (nat * nat)) :=
  match fuel with
  | 0 => None
  | S fuel' =>
      if sat_ck ds legit_pf then
        match state_of_PFmla ds legit_pf ids with
        | None => None
        | Some state => option_map (cons (byte (nth 0 state 0), byte (nth 1 state 0)))
                          (legit_loop fuel' ids (nimp_PFmla legit_pf (of_state ds state ids)))
        end
      else Some []
  end.

(** synthesize.cc:218-225 *)
Definition invariant_of (P : pc_state) : fmla := fold_left and_PFmla (map mb_invariant (k_membs P)) (Cst true).

(** synthesize.cc:198-261: vbl_symms[0].domsz and the legitimate pairs.  vbl_symms[0] is the array that variable 0 is in. *)
Definition ReadUniRing (fuel : nat) (Y : sys_state) (Ps : list pc_state) : option (option (nat * list (nat * nat))) :=
  if sat_ck ds (t_direct (y_totals Y)) then Some None else
  match Ps with
  | [P] =>
      if length (k_membs P) <? 2 then Some None else
      if negb (equiv_ck ds (invariant_of P) (y_invariant Y)) then Some None else
      match k_membs P with
      | [] => Some None
      | m :: _ =>
          let pc := m_pc (mb_pc m) in
          if negb (nw (kind_of N pc) =? 1) then Some None else
          if negb (nr (kind_of N pc) =? 2) then Some None else
          option_map (fun legits => Some (nth 0 ds 0, legits)) (legit_loop fuel (rvbl_indices pc) (mb_invariant m))
      end
  | _ => Some None
  end.

(** synthesize.cc:157-196 *)
Definition uniring_main (fuel : nat) (consts : list (string * list Z)) (arrays : list (string * list nat)) (l : list item) : option (option prot_text) :=
  match read_file consts arrays ds l with
  | None => Some None
  | Some (Y, Ps) =>
      match ReadUniRing fuel Y Ps with
      | None => None
      | Some None => Some None
      | Some (Some (domsz, legits)) =>
          if domsz =? 0 then Some None else
          option_map (fun actions => Some (oput_protocon actions 0)) (generate legits domsz)
      end
  end.
End Ring.
