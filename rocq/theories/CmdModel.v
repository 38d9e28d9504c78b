(** The actions of a protocol file (prot-xfile.cc:358-695).

    Models
      - /repo/src/prot-xfile.cc:358-540  parse_action of one process,
      - /repo/src/prot-xfile.cc:542-562  parse_action of all processes of a kind,
      - /repo/src/prot-xfile.cc:560-695  add_action, forbid_action, permit_action (the strings kept
                                         for output are dropped),
      - /repo/src/prot-xfile.cc:1620-1635  within_process, escape_process,
      - /repo/src/pfmla.cc:59-104        cycle_ck without layers and assumptions, on formulas.
    [None]: the code reports an error or a Claim fails. *)
From Coq Require Import String List Arith Bool ZArith.
From Verif Require Import FinLib Radix FmlaModel ActModel NetModel IntModel ExprModel.
Import ListNotations.
Local Open Scope list_scope.

(** The trees of prot-xfile.leg:83-110: "_;" (the rest keeps its value), "_ := _;" (the rest gets any
    value), "x[i] := e;" ([None]: "_").  "x[i];" is read as "x[i] := x[i];". *)
Inductive assignment := AKeepRest | AAnyRest | ASet (x : string) (i : sexp) (v : option sexp).
(** [a_cut]: the arrow is "-=>" *)
Record action := mkAction { a_cut : bool; a_guard : sexp; a_assigns : list assignment }.

(** A process of the kind in use: the process, its number in the kind, the value of the index. *)
Record membr := mkMembr { m_pc : process; m_number : nat; m_index : Z }.

Section Cycle.
Variable ds : list nat.
(** pfmla.cc:68-86 *)
Fixpoint fwd_loop (fuel : nat) (xn span0 : fmla) : option fmla :=
  match fuel with
  | 0 => None
  | S fuel' =>
      let span1 := img1_PFmla ds xn span0 in
      if equiv_ck ds span0 span1 then Some span0 else fwd_loop fuel' xn span1
  end.
(** pfmla.cc:90-94 *)
Fixpoint bwd_loop (fuel : nat) (xn span0 : fmla) : option fmla :=
  match fuel with
  | 0 => None
  | S fuel' =>
      let span1 := and_PFmla span0 (pre1_PFmla ds xn span0) in
      if equiv_ck ds span0 span1 then Some span0 else bwd_loop fuel' xn span1
  end.
(** pfmla.cc:59-104 with scc only.  The fuel suffices ([scc_found]). *)
Definition scc_of (xn : fmla) : option fmla :=
  match fwd_loop (2 + prod ds) xn (Cst true) with
  | None => None
  | Some span => bwd_loop (2 + prod ds) xn span
  end.
End Cycle.

Section Parse.
Variable N : network.
Variable F : file.
(** What the kind declares: PcSymmSpec::idx_name, let_map, PcSymm::predicate_map. *)
Variable idx_name : string.
Variable lets : list (string * list Z).
Variable preds : list (string * list fmla).
Notation ds := (vdoms N).

Definition role_of (v : nat) : role := nth v (vroles N) Direct.
Definition is_shadow (v : nat) : bool := match role_of v with Shadow => true | _ => false end.
Definition is_puppet (v : nat) : bool := match role_of v with Puppet => true | _ => false end.
(** xnsys.hh:123-157: proj_shadow, proj_puppet *)
Definition smooth_some (l : list nat) (f : fmla) : fmla :=
  if length l =? 0 then f else smooth_vbls ds f l AllCopies.
Definition proj_shadow (f : fmla) : fmla := smooth_some (filter is_puppet (all_ids ds)) f.
Definition proj_puppet (f : fmla) : fmla := smooth_some (filter is_shadow (all_ids ds)) f.

Section Process.
Variable mb : membr.
Notation p := (m_pc mb).
(** prot-xfile.cc:1620-1627 *)
Definition use_of : pcuse := mkUse lets preds (m_number mb) (p_vbls p).
Definition index_of : imap := set_key idx_name (m_index mb) [].
Definition random_ck (v : nat) : bool := existsb (Nat.eqb v) (random_vbls N).

(** The variables of the loop of prot-xfile.cc:379-446. *)
Record progress := mkProgress {
  g_xn : fmla; g_assigned : list bool; g_loops : bool; g_iden : bool; g_wild : bool; g_map : imap }.

(** prot-xfile.cc:441-445 *)
Definition set_vbl (xn : fmla) (v : nat) (val : ipf) : option fmla :=
  match defeq_binop val (of_int (Z.of_nat (domsz ds v))) ModOp with
  | None => None
  | Some val' => option_map (and_PFmla xn) (img_eq ds (of_vbl ds v) val')
  end.
(** prot-xfile.cc:382-446 *)
Definition assign_step (g : progress) (a : assignment) : option progress :=
  match a with
  | AKeepRest => Some (mkProgress (g_xn g) (g_assigned g) (g_loops g) true (g_wild g) (g_map g))
  | AAnyRest => Some (mkProgress (g_xn g) (g_assigned g) (g_loops g) (g_iden g) true (g_map g))
  | ASet x i v =>
      match eval_i ds F (Some use_of) (g_map g) i with
      | None => None
      | Some (z, m1) =>
          match i_map z with
          | [k] =>
              match lookup_vbl F (Some use_of) x k with
              | None => None
              | Some vbl =>
                  match (match v with
                         | None => Some (None, m1)
                         | Some e => option_map (fun r => (Some (fst r), snd r)) (eval_i ds F (Some use_of) m1 e)
                         end) with
                  | None => None
                  | Some (val, m2) =>
                      match position vbl (own_wvbls N p) with
                      | None => None
                      | Some w =>
                          match (if g_wild g then Some (pre_PFmla ds (g_xn g))
                                 else match val with None => Some (g_xn g) | Some val => set_vbl (g_xn g) vbl val end) with
                          | None => None
                          | Some xn =>
                              Some (mkProgress xn (upd (g_assigned g) w true)
                                      (g_loops g || synt_writeonly_ck (waccess (kind_of N p) w))
                                      (g_iden g) (g_wild g) m2)
                          end
                      end
                  end
              end
          | _ => None
          end
      end
  end.
Fixpoint assign_loop (g : progress) (l : list assignment) : option progress :=
  match l with
  | [] => Some g
  | a :: l' => match assign_step g a with None => None | Some g' => assign_loop g' l' end
  end.

(** prot-xfile.cc:448-468: the written variables that have not been assigned *)
Definition rest_kept (cut : bool) (g : progress) (w : nat) : bool :=
  g_iden g && negb (g_wild g) && negb (nth w (g_assigned g) false)
  && negb (cut && random_write_ck (waccess (kind_of N p) w)).
Definition keep_rest (cut : bool) (g : progress) : fmla :=
  fold_left (fun x w => if rest_kept cut g w then and_PFmla x (img_eq_PFmlaVbl ds (wvbl N p w) (wvbl N p w)) else x)
    (seq 0 (nw (kind_of N p))) (g_xn g).
(** prot-xfile.cc:474-480 *)
Definition redraw (guard x : fmla) : fmla :=
  fold_left (fun x v => if random_ck v then and_PFmla guard (smooth_vbls ds x [v] Pre) else x) (p_vbls p) x.

(** prot-xfile.cc:491-499 *)
Definition changing (r : role) (i : nat) : bool :=
  write_ck (acc (kind_of N p) i) || random_ck (rvbl p i)
  || match r with Shadow => is_puppet (rvbl p i) | _ => is_shadow (rvbl p i) end.
Definition fixed_vbls (r : role) : list nat :=
  map (rvbl p) (filter (fun i => negb (changing r i)) (seq 0 (nr (kind_of N p)))).
(** prot-xfile.cc:485-504 *)
Definition local_xn (r : role) (x : fmla) : fmla :=
  fold_left (fun x v => and_PFmla x (img_eq_PFmlaVbl ds v v)) (fixed_vbls r)
    (match r with Shadow => proj_shadow x | _ => proj_puppet x end).
(** prot-xfile.cc:484-516 *)
Definition cut_cycles (r : role) (x : fmla) : option fmla :=
  let pc_xn := local_xn r x in
  match scc_of ds pc_xn with
  | None => None
  | Some scc =>
      Some (if sat_ck ds scc
            then nimp_PFmla x (fold_left (fun y v => smooth_vbls ds y [v] Img) (fixed_vbls r)
                                 (and_PFmla pc_xn (cross_PFmla ds scc scc)))
            else x)
  end.
(** prot-xfile.cc:519-526; [keep_own] is the conjunction over the written variables *)
Definition cut_loops (x : fmla) : fmla := nimp_PFmla x (keep_own N p).

(** prot-xfile.cc:358-540 *)
Definition parse_action (auto_iden : bool) (r : role) (act : action) : option fmla :=
  match eval_f ds F (Some use_of) index_of (a_guard act) with
  | None => None
  | Some (guard, m) =>
      match assign_loop (mkProgress guard (repeat false (nw (kind_of N p))) false auto_iden false m) (a_assigns act) with
      | None => None
      | Some g =>
          let x := redraw guard (keep_rest (a_cut act) g) in
          match (if a_cut act then cut_cycles r x else Some x) with
          | None => None
          | Some x => Some (if g_loops g then cut_loops x else x)
          end
      end
  end.
End Process.

Fixpoint all_parsed {A} (l : list (option A)) : option (list A) :=
  match l with
  | [] => Some []
  | Some x :: l' => option_map (cons x) (all_parsed l')
  | None :: _ => None
  end.
(** prot-xfile.cc:542-562: the formulas of the processes, and their union in the whole system *)
Definition parse_actions (mbs : list membr) (auto_iden : bool) (r : role) (act : action) : option (fmla * list fmla) :=
  option_map (fun xs =>
      (fold_left (fun f mx => or_PFmla f (and_PFmla (snd mx) (mask_of N (m_pc (fst mx))))) (combine mbs xs) (Cst false), xs))
    (all_parsed (map (fun mb => parse_action mb auto_iden r act) mbs)).

(** prot-xfile.cc:595-603.  [None]: cycle_ck runs out of fuel (it does not). *)
Definition add_puppet (p : process) (x : fmla) : option fmla :=
  let k := kind_of N p in
  let y := or_PFmla (p_puppet p) x in
  if existsb synt_writeonly_ck (accs k) && negb (random_write_exists k)
  then option_map (nimp_PFmla y) (scc_of ds (and_PFmla y (mask_of N p)))
  else Some y.
(** prot-xfile.cc:586-601 *)
Definition add_to (r : role) (p : process) (x : fmla) : option process :=
  let sh := match r with Puppet => p_shadow p | _ => or_PFmla (p_shadow p) (proj_shadow x) end in
  option_map (fun pu => mkProcess (p_kind p) (p_vbls p) (p_assume p) pu sh (p_permit p) (p_forbid p))
    (match r with Shadow => Some (p_puppet p) | _ => add_puppet p x end).
(** Sys::direct_pfmla, Sys::shadow_pfmla *)
Record totals := mkTotals { t_direct : fmla; t_shadow : fmla }.
(** prot-xfile.cc:560-631: the changed processes and the changed formulas of the system *)
Definition add_action (mbs : list membr) (r : role) (act : action) (T : totals) : option (list membr * totals) :=
  match parse_actions mbs true r act with
  | None => None
  | Some (f, xs) =>
      match all_parsed (map (fun mx => option_map (fun p => mkMembr p (m_number (fst mx)) (m_index (fst mx)))
                                         (add_to r (m_pc (fst mx)) (snd mx))) (combine mbs xs)) with
      | None => None
      | Some mbs' =>
          Some (mbs', mkTotals
            (match r with Shadow => t_direct T | _ => or_PFmla (t_direct T) f end)
            (match r with Puppet => t_shadow T
             | _ => or_PFmla (t_shadow T) (nimp_PFmla (proj_shadow f) (proj_shadow (identity_xn ds))) end))
      end
  end.
(** prot-xfile.cc:633-663 *)
Definition forbid_action (mbs : list membr) (act : action) : option (list membr) :=
  option_map (fun fx => map (fun mx => let p := m_pc (fst mx) in
      mkMembr (mkProcess (p_kind p) (p_vbls p) (p_assume p) (p_puppet p) (p_shadow p) (p_permit p) (or_PFmla (p_forbid p) (snd mx)))
        (m_number (fst mx)) (m_index (fst mx))) (combine mbs (snd fx)))
    (parse_actions mbs false Puppet act).
(** prot-xfile.cc:665-695 *)
Definition permit_action (mbs : list membr) (act : action) : option (list membr) :=
  option_map (fun fx => map (fun mx => let p := m_pc (fst mx) in
      mkMembr (mkProcess (p_kind p) (p_vbls p) (p_assume p) (p_puppet p) (p_shadow p) (or_PFmla (p_permit p) (snd mx)) (p_forbid p))
        (m_number (fst mx)) (m_index (fst mx))) (combine mbs (snd fx)))
    (parse_actions mbs false Puppet act).
End Parse.
