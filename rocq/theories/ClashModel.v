(** The conflicts that a protocol file lists.

    Models
      - /repo/src/prot-xfile.cc:697-758      conflict_action,
      - /repo/src/prot-xfile.cc:760-768      push_conflict_action, which the grammar never calls,
      - /repo/src/prot-xfile.leg:142-146     "conflict: a1, a2;" and 190-203, where it may stand,
      - /repo/src/xnpc.cc:96-132             the process that stands for the others,
      - /repo/src/synthesis.cc:1648-1661     what the search does with the conflicts of the kinds.
    The other statements are those of DeclModel.v. *)
From Coq Require Import String List Arith Bool ZArith.
From Verif Require Import FinLib FmlaModel ActModel NetModel IntModel ExprModel CmdModel DeclModel ConflictSpec ConflictModel.
Import ListNotations.
Local Open Scope list_scope.

(** xnpc.cc:96-132: the first process without repeated variables *)
Definition stands_in (N : network) (mbs : list membr) : option membr :=
  find (fun mb => distinct (p_vbls (m_pc mb)) && distinct (own_wvbls N (m_pc mb))) mbs.

Section Action.
Variable N : network.
Variable mb : membr.
Notation ds := (vdoms N).
Notation p := (m_pc mb).
(** prot-xfile.cc:717-733.  [None]: not unique, or the Claim of pfmla.c:675 fails. *)
Definition guard_value (x : fmla) (i : nat) : option nat :=
  if is_shadow N (rvbl p i) then Some 0
  else match state_of_PFmla ds x [rvbl p i] with
       | Some [val] => if FmlaModel.subseteq_ck ds x (eqc_PFmlaVbl ds (rvbl p i) val) then Some val else None
       | _ => None
       end.
(** prot-xfile.cc:735-753 *)
Definition assign_value (x : fmla) (w : nat) : option nat :=
  if is_shadow N (wvbl N p w) && FmlaModel.subseteq_ck ds x (img_eq_PFmlaVbl ds (wvbl N p w) (wvbl N p w))
  then Some (domsz ds (wvbl N p w))
  else match state_of_PFmla ds (img_PFmla ds x) [wvbl N p w] with
       | Some [val] => if FmlaModel.subseteq_ck ds x (img_eqc_PFmlaVbl ds (wvbl N p w) val) then Some val else None
       | _ => None
       end.
(** prot-xfile.cc:711-756 *)
Definition clash_of (x : fmla) : option act :=
  match all_parsed (map (guard_value x) (seq 0 (nr (kind_of N p)))), all_parsed (map (assign_value x) (seq 0 (nw (kind_of N p)))) with
  | Some g, Some h => Some {| act_pc := p_kind p; vals := g ++ h |}
  | _, _ => None
  end.
End Action.

(** prot-xfile.cc:697-758: what is added to the list that is being read *)
Definition conflict_action (N : network) (F : file) (idx_name : string) (lets : list (string * list Z)) (preds : list (string * list fmla))
    (mbs : list membr) (a : action) : option (list act) :=
  match stands_in N mbs with
  | None => Some []
  | Some mb =>
      match parse_action N F idx_name lets preds mb true Puppet a with
      | None => None
      | Some x => option_map (fun c => [c]) (clash_of N mb x)
      end
  end.
(** prot-xfile.leg:142-146: the actions of a list, one after the other *)
Fixpoint conflict_actions (N : network) (F : file) (idx_name : string) (lets : list (string * list Z)) (preds : list (string * list fmla))
    (mbs : list membr) (conflict : list act) (l : list action) : option (list act) :=
  match l with
  | [] => Some conflict
  | a :: l' =>
      match conflict_action N F idx_name lets preds mbs a with
      | None => None
      | Some c => conflict_actions N F idx_name lets preds mbs (conflict ++ c) l'
      end
  end.

(** prot-xfile.cc:760-768: the list becomes one of the conflicts of the kind (as a set; the order is dropped) *)
Definition push_conflict_action (conflicts : list (list act)) (conflict : list act) : list (list act) * list act :=
  match conflict with [] => (conflicts, conflict) | _ => (conflicts ++ [conflict], []) end.

(** prot-xfile.leg:190-203: the statements of a process, with the lists of conflicts *)
Inductive pstmt := PStmt (st : stmt) | PConflict (l : list action).
Inductive pitem := POutside (st : stmt) | PInside (h : pc_head) (l : list pstmt).
(** What is known while a kind is read: the system, the kind, PcSymm::conflicts, and ProtoconFile::conflict *)
Record reading := mkReading { rd_sys : sys_state; rd_kind : pc_state; rd_conflicts : list (list act); rd_conflict : list act }.

Section Read.
Variable consts : list (string * list Z).
Variable arrays : list (string * list nat).
Definition read_pstmt (h : pc_head) (R : reading) (st : pstmt) : option reading :=
  match st with
  | PStmt st =>
      option_map (fun YP => mkReading (fst YP) (snd YP) (rd_conflicts R) (rd_conflict R))
        (read_inside consts arrays h (rd_sys R, rd_kind R) st)
  | PConflict l =>
      option_map (mkReading (rd_sys R) (rd_kind R) (rd_conflicts R))
        (conflict_actions (h_net h) (file_of consts arrays (rd_sys R)) (h_idx h) (h_lets h) (k_preds (rd_kind R))
           (map mb_pc (k_membs (rd_kind R))) (rd_conflict R) l)
  end.
Fixpoint read_pbody (h : pc_head) (R : reading) (l : list pstmt) : option reading :=
  match l with
  | [] => Some R
  | st :: l' => match read_pstmt h R st with None => None | Some R' => read_pbody h R' l' end
  end.
(** The whole file: the system, the kinds with their conflicts *)
Fixpoint read_pitems (ds : list nat) (Y : sys_state) (conflict : list act) (l : list pitem)
  : option (sys_state * list (pc_state * list (list act))) :=
  match l with
  | [] => Some (Y, [])
  | POutside st :: l' => match read_outside consts arrays ds Y st with None => None | Some Y' => read_pitems ds Y' conflict l' end
  | PInside h body :: l' =>
      match read_pbody h (mkReading Y (new_kind h) [] conflict) body with
      | None => None
      | Some R => option_map (fun YP => (fst YP, (rd_kind R, rd_conflicts R) :: snd YP)) (read_pitems ds (rd_sys R) (rd_conflict R) l')
      end
  end.
Definition read_pfile (ds : list nat) (l : list pitem) : option (sys_state * list (pc_state * list (list act))) :=
  read_pitems ds new_sys [] l.
End Read.

(** synthesis.cc:1648-1661: the conflicts of the kinds are added to those of the search *)
Definition add_file_conflicts (place : fset -> list fset -> nat) (net : list pcsymm) (f : family) (conflicts : list (list (list act))) : family :=
  fold_left (fun f c => ConflictModel.add_conflict place f (fs_of (map (id_of net) c))) (concat conflicts) f.
