(** The instances of one file, and the test that their actions are numbered alike.

    Models
      - /repo/src/xnpc.cc:76-95      PcSymm::dom_equiv_ck,
      - /repo/src/search.cc:543-547, 577-613  stabilization_search_init: reading the system and its instances, and comparing them.
    Not modelled of stabilization_search_init: the log, the search for repeated variable references, SynthesisCtx::init and add, the choice of
    actions and the ranks (these are in CandModel.v, RankModel.v and others).  What is modelled here must succeed for the whole to succeed. *)
From Coq Require Import String List Arith Bool ZArith.
From Verif Require Import FinLib Radix CmdModel ParseModel AccessModel FmlaModel ActModel NetModel ExprModel DeclModel HeadModel InstModel.
Import ListNotations.
Local Open Scope list_scope.
Local Open Scope nat_scope.

(** Net::pc_symms once the file is read: the kinds of the last definition are all kinds so far (HeadModel.v) *)
Definition later_kinds (ks : list pcsymm) (it : item) : list pcsymm := match it with Outside _ => ks | Inside h _ => kinds (h_net h) end.
Definition system_kinds (R : presult) : list pcsymm := fold_left later_kinds (r_items R) [].

(** xnpc.cc:76-95.  The domain of an access is that of its array. *)
Definition dom_equiv_ck (a b : pcsymm) : bool :=
  (n_possible_acts a =? n_possible_acts b) &&
  (nr a =? nr b) && forallb (fun i => a_dom (acc a i) =? a_dom (acc b i)) (seq 0 (nr a)) &&
  (nw a =? nw b) && forallb (fun i => a_dom (waccess a i) =? a_dom (waccess b i)) (seq 0 (nw a)).
(** search.cc:595-613: one system against the first; [None] of a kind that is not there is not reached, see C95_shape *)
Definition same_doms_ck (sys inst : list pcsymm) : bool :=
  forallb (fun i => dom_equiv_ck (nth i sys pc0) (nth i inst pc0)) (seq 0 (length sys)).
(** search.cc:543-547, 577-613: [given] are the constants of the system itself, [insts] those of the instances *)
Definition init_systems (given : list (string * list Z)) (insts : list (list (string * list Z))) (t : ptext) : option (presult * list presult) :=
  match read_text given t, all_parsed (map (fun g => read_text g t) insts) with
  | Some R, Some Rs => if forallb (fun R' => same_doms_ck (system_kinds R) (system_kinds R')) Rs then Some (R, Rs) else None
  | _, _ => None
  end.
(** opt.cc (InstModel.v) and search.cc together *)
Definition init_line (line : list word) (t : ptext) : option (presult * list presult) :=
  match read_line line with
  | Some c => init_systems (given_consts (co_file c)) (map (fun o => given_consts (po_consts o)) (co_insts c)) t
  | None => None
  end.
