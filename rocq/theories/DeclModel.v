(** The statements of a protocol file: what is assumed, what is legitimate, what is named, what is done.

    Models
      - /repo/src/prot-xfile.cc:769-795   add_pc_predicate,
      - /repo/src/prot-xfile.cc:797-829   add_pc_assume,
      - /repo/src/prot-xfile.cc:831-869   add_pc_legit,
      - /repo/src/prot-xfile.cc:871-877   finish_pc_def,
      - /repo/src/prot-xfile.cc:879-903   add_predicate,
      - /repo/src/prot-xfile.cc:905-931   add_assume,
      - /repo/src/prot-xfile.cc:933-947   assign_legit_mode,
      - /repo/src/prot-xfile.cc:949-979   add_legit,
      - /repo/src/prot-xfile.leg:148-299  the order in which a file may have them,
    with the actions as in CmdModel.v.  The strings that are kept for output are in ParseModel.v.  The constants
    and the variables are declared before everything else.  Featherweight reading (interpret_ck false) is left out.
    [None]: the file is refused; what has been read up to there is not looked at then. *)
From Coq Require Import String List Arith Bool ZArith.
From Verif Require Import FinLib FmlaModel ActModel NetModel IntModel ExprModel CmdModel.
Import ListNotations.
Local Open Scope list_scope.

(** xnspec.hh:42-55 *)
Inductive invariant_style := FutureAndClosed | FutureAndSilent | FutureAndShadow | FutureAndActiveShadow.
Inductive invariant_scope := DirectInvariant | ShadowInvariant | FutureInvariant.
Definition mode : Type := invariant_style * invariant_scope.
Definition style_eqb (a b : invariant_style) : bool :=
  match a, b with
  | FutureAndClosed, FutureAndClosed | FutureAndSilent, FutureAndSilent | FutureAndShadow, FutureAndShadow
  | FutureAndActiveShadow, FutureAndActiveShadow => true
  | _, _ => false
  end.
Definition scope_eqb (a b : invariant_scope) : bool :=
  match a, b with
  | DirectInvariant, DirectInvariant | ShadowInvariant, ShadowInvariant | FutureInvariant, FutureInvariant => true
  | _, _ => false
  end.

(** prot-xfile.leg:112-161, 256-291: "predicate x := e;", "(assume & closed) (e);", "(future & silent) (e);",
    and inside a process also "shadow:", "direct:", "puppet:", "permit:" and "forbid:" *)
Inductive stmt :=
| Predicate (x : string) (e : sexp)
| Assume (e : sexp)
| Legit (md : mode) (e : sexp)
| Act (r : role) (a : action)
| Permit (a : action)
| Forbid (a : action).

(** A process of the kind that is being read: the process, and Pc::invariant *)
Record member := mkMember { mb_pc : membr; mb_invariant : fmla }.
(** What the head of a process definition has declared: the network up to this kind, the name of the index, the lets,
    the processes *)
Record pc_head := mkHead { h_net : network; h_idx : string; h_lets : list (string * list Z); h_membs : list membr }.
(** An entry of the file *)
Inductive item := Outside (st : stmt) | Inside (h : pc_head) (l : list stmt).

(** Sys: predicate_map, closed_assume, invariant, direct_pfmla and shadow_pfmla; invariant_style and invariant_scope once
    legit_mode_assigned *)
Record sys_state := mkSys { y_preds : list (string * fmla); y_assume : fmla; y_invariant : fmla; y_totals : totals; y_mode : option mode }.
(** PcSymm: predicate_map and the processes *)
Record pc_state := mkPcState { k_preds : list (string * list fmla); k_membs : list member }.

(** prot-xfile.cc:933-947 *)
Definition assign_legit_mode (Y : sys_state) (md : mode) : option sys_state :=
  match y_mode Y with
  | Some md' => if style_eqb (fst md') (fst md) && scope_eqb (snd md') (snd md)
                then Some (mkSys (y_preds Y) (y_assume Y) (y_invariant Y) (y_totals Y) (Some md)) else None
  | None => Some (mkSys (y_preds Y) (y_assume Y) (y_invariant Y) (y_totals Y) (Some md))
  end.

Section Read.
Variable consts : list (string * list Z).
Variable arrays : list (string * list nat).
Definition file_of (Y : sys_state) : file := mkFile consts arrays (y_preds Y).

Section Outside.
Variable ds : list nat.
(** prot-xfile.cc:879-903, 905-931, 949-979: no process is in use *)
Definition read_outside (Y : sys_state) (st : stmt) : option sys_state :=
  match st with
  | Predicate x e =>
      match eval_f ds (file_of Y) None [] e with
      | None => None
      | Some (pf, _) => Some (mkSys (set_key x pf (y_preds Y)) (y_assume Y) (y_invariant Y) (y_totals Y) (y_mode Y))
      end
  | Assume e =>
      match eval_f ds (file_of Y) None [] e with
      | None => None
      | Some (pf, _) => Some (mkSys (y_preds Y) (and_PFmla (y_assume Y) pf) (y_invariant Y) (y_totals Y) (y_mode Y))
      end
  | Legit md e =>
      match assign_legit_mode Y md with
      | None => None
      | Some Y =>
          match eval_f ds (file_of Y) None [] e with
          | None => None
          | Some (pf, _) => Some (mkSys (y_preds Y) (y_assume Y) (and_PFmla (y_invariant Y) pf) (y_totals Y) (y_mode Y))
          end
      end
  | _ => None
  end.
End Outside.

Section Inside.
Variable h : pc_head.
Notation N := (h_net h).
(** The expression for each of the processes *)
Definition eval_members (Y : sys_state) (P : pc_state) (e : sexp) : option (list fmla) :=
  all_parsed (map (fun m => option_map fst
      (eval_f (vdoms N) (file_of Y) (Some (use_of (h_lets h) (k_preds P) (mb_pc m))) (index_of (h_idx h) (mb_pc m)) e)) (k_membs P)).
(** prot-xfile.cc:824-825 *)
Definition assume_member (m : member) (pf : fmla) : member :=
  let p := m_pc (mb_pc m) in
  mkMember (mkMembr (mkProcess (p_kind p) (p_vbls p) (and_PFmla (p_assume p) pf) (p_puppet p) (p_shadow p) (p_permit p) (p_forbid p))
              (m_number (mb_pc m)) (m_index (mb_pc m))) (mb_invariant m).
(** prot-xfile.cc:863 *)
Definition legit_member (m : member) (pf : fmla) : member := mkMember (mb_pc m) (and_PFmla (mb_invariant m) pf).
Definition with_pcs (P : pc_state) (mbs : list membr) : pc_state :=
  mkPcState (k_preds P) (map (fun mx => mkMember (snd mx) (mb_invariant (fst mx))) (combine (k_membs P) mbs)).
(** prot-xfile.cc:769-795, 797-829, 831-869 and 560-695 *)
Definition read_inside (YP : sys_state * pc_state) (st : stmt) : option (sys_state * pc_state) :=
  let '(Y, P) := YP in
  match st with
  | Predicate x e =>
      match eval_members Y P e with
      | None => None
      | Some pfs => Some (Y, mkPcState (set_key x pfs (k_preds P)) (k_membs P))
      end
  | Assume e =>
      match eval_members Y P e with
      | None => None
      | Some pfs =>
          Some (mkSys (y_preds Y) (fold_left and_PFmla pfs (y_assume Y)) (y_invariant Y) (y_totals Y) (y_mode Y),
                mkPcState (k_preds P) (map (fun mx => assume_member (fst mx) (snd mx)) (combine (k_membs P) pfs)))
      end
  | Legit md e =>
      match assign_legit_mode Y md with
      | None => None
      | Some Y =>
          match eval_members Y P e with
          | None => None
          | Some pfs =>
              Some (mkSys (y_preds Y) (y_assume Y) (fold_left and_PFmla pfs (y_invariant Y)) (y_totals Y) (y_mode Y),
                    mkPcState (k_preds P) (map (fun mx => legit_member (fst mx) (snd mx)) (combine (k_membs P) pfs)))
          end
      end
  | Act r a =>
      match add_action N (file_of Y) (h_idx h) (h_lets h) (k_preds P) (map mb_pc (k_membs P)) r a (y_totals Y) with
      | None => None
      | Some (mbs, T) => Some (mkSys (y_preds Y) (y_assume Y) (y_invariant Y) T (y_mode Y), with_pcs P mbs)
      end
  | Permit a =>
      match permit_action N (file_of Y) (h_idx h) (h_lets h) (k_preds P) (map mb_pc (k_membs P)) a with
      | None => None
      | Some mbs => Some (Y, with_pcs P mbs)
      end
  | Forbid a =>
      match forbid_action N (file_of Y) (h_idx h) (h_lets h) (k_preds P) (map mb_pc (k_membs P)) a with
      | None => None
      | Some mbs => Some (Y, with_pcs P mbs)
      end
  end.
Fixpoint read_body (YP : sys_state * pc_state) (l : list stmt) : option (sys_state * pc_state) :=
  match l with
  | [] => Some YP
  | st :: l' => match read_inside YP st with None => None | Some YP' => read_body YP' l' end
  end.
(** xnpc.hh:180-189: the processes when the definition begins *)
Definition new_kind : pc_state := mkPcState [] (map (fun m => mkMember m (Cst true)) (h_membs h)).
End Inside.

(** The whole file: the system, and the kinds of processes *)
Fixpoint read_items (ds : list nat) (Y : sys_state) (l : list item) : option (sys_state * list pc_state) :=
  match l with
  | [] => Some (Y, [])
  | Outside st :: l' => match read_outside ds Y st with None => None | Some Y' => read_items ds Y' l' end
  | Inside h body :: l' =>
      match read_body h (Y, new_kind h) body with
      | None => None
      | Some (Y', P) => option_map (fun YP => (fst YP, P :: snd YP)) (read_items ds Y' l')
      end
  end.
(** xnsys.hh:211-212 *)
Definition new_sys : sys_state := mkSys [] (Cst true) (Cst true) (mkTotals (Cst false) (Cst false)) None.
Definition read_file (ds : list nat) (l : list item) : option (sys_state * list pc_state) := read_items ds new_sys l.
End Read.
