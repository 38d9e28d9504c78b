(** Networks of processes and the transition formulas of their actions.

    Models
      - /repo/src/xnsys.cc:81-88     Net::commit_initialization (classes, cached formulas),
      - /repo/src/xnsys.cc:358-415   action_pfmla, action_xfmlae, safe_ck,
      - /repo/src/xnsys.cc:824-883   sync_xn, semisync_xn,
      - /repo/src/xnsys.cc:895-1054  xn_of_pc, represented_xns_of_pc, make_action_pfmla,
                                     make_action_xfmlae, cache_action_xfmla,
      - /repo/src/xnpc.cc:96-132     init_representative, representative.
    Formulas are those of FmlaModel.v, action numbers those of ActModel.v. *)
From Coq Require Import List Arith Bool.
From Verif Require Import FinLib Radix FmlaModel ActModel.
Import ListNotations.

(** xnspec.hh:259-261 *)
Definition synt_readonly_ck (a : access) : bool := synt_read_ck a && negb (write_ck a).

(** xnpc.hh:158-186.  A process: its kind, the variable of every access, and the formulas it was
    given. *)
Record process := mkProcess {
  p_kind : nat;
  p_vbls : list nat;
  p_assume : fmla;   (** closed_assume *)
  p_puppet : fmla;   (** puppet_xn *)
  p_shadow : fmla;   (** shadow_xn *)
  p_permit : fmla;   (** permit_xn *)
  p_forbid : fmla    (** forbid_xn *)
}.

(** xnsys.hh: the domain sizes and roles of the variables, the kinds of processes, the processes
    (those of one kind are adjacent and in order, xnsys.cc:205-217). *)
Record network := mkNetwork {
  vdoms : list nat;
  vroles : list role;
  kinds : list pcsymm;
  pcs : list process
}.

Section Net.
Variable N : network.
Notation ds := (vdoms N).

Definition kind_of (p : process) : pcsymm := nth (p_kind p) (kinds N) pc0.
(** Pc::rvbls and Pc::wvbls (xnsys.cc:248-262) *)
Definition rvbl (p : process) (i : nat) : nat := nth i (p_vbls p) 0.
Definition wvbl (p : process) (w : nat) : nat := rvbl p (nth w (wmap (kind_of p)) 0).
(** xnsys.cc:251-253, 59-63: the variables somebody reads at random *)
Definition random_vbls : list nat :=
  flat_map (fun p => map (rvbl p) (filter (fun i => random_read_ck (acc (kind_of p) i)) (seq 0 (nr (kind_of p)))))
           (pcs N).
(** wvbl_list_ids (xnsys.cc:268-269, 69-70) and global_mask_xn (xnsys.cc:213, 264-271, 71-74) *)
Definition written (p : process) : list nat := map (wvbl p) (seq 0 (nw (kind_of p))) ++ random_vbls.
Definition mask_of (p : process) : fmla := mask_xn ds (written p).

(** ** xn_of_pc, xnsys.cc:895-969.  The first loop is split into the conjuncts it adds and the two
    flags it computes. *)

(** xnsys.cc:913-920 *)
Definition w_guard (p : process) (v : list nat) (w : nat) : list fmla :=
  if synt_read_ck (waccess (kind_of p) w) then [eqc_PFmlaVbl ds (wvbl p w) (aguard (kind_of p) v w)] else [].
(** xnsys.cc:922-930; the Claim is proved ([keep_is_writeonly]) *)
Definition w_assign (p : process) (v : list nat) (w : nat) : list fmla :=
  if random_write_ck (waccess (kind_of p) w) then []
  else if assign (kind_of p) v w =? a_dom (waccess (kind_of p) w)
  then [img_eq_PFmlaVbl ds (wvbl p w) (wvbl p w)]
  else [img_eqc_PFmlaVbl ds (wvbl p w) (assign (kind_of p) v w)].
(** xnsys.cc:914-916 *)
Definition probabilistic_pc (k : pcsymm) : bool :=
  existsb (fun w => synt_read_ck (waccess k w) && random_write_ck (waccess k w)) (seq 0 (nw k)).
(** xnsys.cc:905, 917-919, 933 *)
Definition readable_self_loop (k : pcsymm) (v : list nat) : bool :=
  negb (probabilistic_pc k) &&
  forallb (fun w => negb (synt_read_ck (waccess k w)) || random_write_ck (waccess k w)
                    || (aguard k v w =? assign k v w)) (seq 0 (nw k)).
(** xnsys.cc:937-943 *)
Definition okay_xn (p : process) : fmla :=
  let x := and_PFmla (p_assume p) (subst1_vbls (p_assume p) (written p) true) in
  let x := and_PFmla x (not_PFmla (p_forbid p)) in
  if sat_ck ds (p_permit p) then and_PFmla x (p_permit p) else x.
(** xnsys.cc:949-958 *)
Definition writeonly_guard (p : process) (v : list nat) : fmla :=
  fold_left (fun g w =>
      if synt_writeonly_ck (waccess (kind_of p) w) && (assign (kind_of p) v w <? a_dom (waccess (kind_of p) w))
      then or_PFmla g (not_PFmla (eqc_PFmlaVbl ds (wvbl p w) (assign (kind_of p) v w)))
      else g)
    (seq 0 (nw (kind_of p))) (Cst false).
(** xnsys.cc:961-966 *)
Definition r_guard (p : process) (v : list nat) (i : nat) : list fmla :=
  if synt_readonly_ck (acc (kind_of p) i) then [eqc_PFmlaVbl ds (rvbl p i) (guard v i)] else [].
Definition all_of (l : list fmla) (x : fmla) : fmla := fold_left and_PFmla l x.
Definition xn_of_pc (p : process) (v : list nat) : fmla :=
  let k := kind_of p in
  let x := all_of (flat_map (fun w => w_guard p v w ++ w_assign p v w) (seq 0 (nw k))) (Cst true) in
  let x := if probabilistic_pc k then and_PFmla x (okay_xn p) else x in
  let x := if readable_self_loop k v then and_PFmla x (writeonly_guard p v) else x in
  all_of (flat_map (r_guard p v) (seq 0 (nr k))) x.

(** ** One formula per process (X::Fmlae), in the order of [pcs] *)
Definition proc_of (p : process) (x : fmla) : proc := mkProc (written p) x (mask_of p).
Definition procs_of (xs : list fmla) : list proc := map (fun px => proc_of (fst px) (snd px)) (combine (pcs N) xs).
Definition or_all (xs ys : list fmla) : list fmla := map (fun xy => or_PFmla (fst xy) (snd xy)) (combine xs ys).
(** xfmlae.hh:131-134 *)
Definition self_disable_all (xs : list fmla) : list fmla := map (fun p => xn (self_disable ds p)) (procs_of xs).
Definition no_xn : list fmla := map (fun _ => Cst false) (pcs N).

(** xnsys.cc:1008-1027.  [x |= xn] on a fresh false formula. *)
Definition make_action_xfmlae (actidx : nat) : list fmla :=
  let a := act_of (kinds N) actidx in
  map (fun p => if p_kind p =? act_pc a then or_PFmla (Cst false) (xn_of_pc p (vals a)) else Cst false) (pcs N).
(** xnsys.cc:998-1006 *)
Definition make_action_pfmla (actidx : nat) : fmla := xfmla ds (procs_of (make_action_xfmlae actidx)).

(** xnspec.hh:323: some access writes at random *)
Definition random_write_exists (k : pcsymm) : bool := existsb random_write_ck (accs k).
Definition kind_of_action (actidx : nat) : pcsymm := nth (action_pcsymm_index (kinds N) actidx) (kinds N) pc0.

(** xnsys.cc:363-375: action_pfmla of a lightweight network *)
Definition action_pfmla_light (actidx : nat) : fmla :=
  let x := fold_left (fun x r => or_PFmla x (make_action_pfmla r)) (represented_actions (kinds N) actidx) (Cst false) in
  if random_write_exists (kind_of_action actidx) then x else nimp_PFmla x (img_PFmla ds x).
(** xnsys.cc:383-395: action_xfmlae of a lightweight network *)
Definition action_xfmlae_light (actidx : nat) : list fmla :=
  let x := fold_left (fun x r => or_all x (make_action_xfmlae r)) (represented_actions (kinds N) actidx) no_xn in
  if random_write_exists (kind_of_action actidx) then x else self_disable_all x.

(** xnsys.cc:1033-1054 (cache_action_xfmla) and 84-88.  The table holds one list of formulas per
    action.  If no representative were found (impossible, C40) nothing would be stored. *)
Definition cache_action (tbl : list (list fmla)) (actidx : nat) : list (list fmla) :=
  let x := make_action_xfmlae actidx in
  match representative_action_index (kinds N) actidx with
  | None => tbl
  | Some rep =>
      let tbl := if rep =? actidx then upd tbl actidx x
                 else let tbl := upd tbl actidx no_xn in
                      upd tbl rep (or_all (nth rep tbl []) x) in
      if random_write_exists (kind_of_action actidx) then tbl
      else upd tbl rep (self_disable_all (nth rep tbl []))
  end.
Definition act_xfmlaes : list (list fmla) :=
  let n := total_acts (kinds N) in
  fold_left cache_action (seq 0 n) (repeat no_xn n).

(** xnsys.cc:358-361, 378-381: with cached formulas *)
Definition action_xfmlae_cached (actidx : nat) : list fmla := nth actidx act_xfmlaes [].
Definition action_pfmla_cached (actidx : nat) : fmla := xfmla ds (procs_of (action_xfmlae_cached actidx)).

(** [lightweight] chooses between the two. *)
Definition action_xfmlae (lightweight : bool) (actidx : nat) : list fmla :=
  if lightweight then action_xfmlae_light actidx else action_xfmlae_cached actidx.
Definition action_pfmla (lightweight : bool) (actidx : nat) : fmla :=
  if lightweight then action_pfmla_light actidx else action_pfmla_cached actidx.

(** xnpc.cc:96-132: the members of a kind, and the first one that accesses no variable twice. *)
Definition membs (k : nat) : list (nat * process) :=
  filter (fun ip => p_kind (snd ip) =? k) (combine (seq 0 (length (pcs N))) (pcs N)).
Fixpoint distinct (l : list nat) : bool :=
  match l with [] => true | x :: l' => negb (existsb (Nat.eqb x) l') && distinct l' end.
Definition representative (k : nat) : option (nat * process) :=
  find (fun ip => distinct (p_vbls (snd ip))
                  && distinct (map (wvbl (snd ip)) (seq 0 (nw (kind_of (snd ip)))))) (membs k).
(** The process used where the answer of [representative] is ignored: the first member. *)
Definition some_memb (k : nat) : option (nat * process) :=
  match representative k with Some p => Some p | None => hd_error (membs k) end.

(** xnsys.cc:974-996: the formula of the action for one process; [i] is its position in [pcs]. *)
Definition represented_xns_of_pc (lightweight : bool) (actidx : nat) (ip : nat * process) : fmla :=
  if lightweight then
    let p := snd ip in
    let x := fold_left (fun x r => or_PFmla x (xn_of_pc p (vals (act_of (kinds N) r))))
               (represented_actions (kinds N) actidx) (Cst false) in
    if random_write_exists (kind_of_action actidx) then x
    else nimp_PFmla x (img_PFmla ds (and_PFmla x (mask_of p)))
  else nth (fst ip) (action_xfmlae_cached actidx) (Cst false).

(** xnsys.cc:397-415 *)
Definition safe_ck (lightweight : bool) (actidx : nat) : bool :=
  match some_memb (action_pcsymm_index (kinds N) actidx) with
  | None => true
  | Some ip =>
      let x := represented_xns_of_pc lightweight actidx ip in
      if sat_ck ds (p_permit (snd ip)) && negb (subseteq_ck ds x (p_permit (snd ip))) then false
      else if sat_ck ds (p_forbid (snd ip)) && subseteq_ck ds x (p_forbid (snd ip)) then false
      else true
  end.

(** ** sync_xn, xnsys.cc:824-883.  [None]: two processes write the same variable. *)
Definition sync_procs (actidcs : list nat) : list fmla :=
  map (fun p => fold_left (fun x r =>
          let a := act_of (kinds N) r in
          if p_kind p =? act_pc a then or_PFmla x (xn_of_pc p (vals a)) else x)
        (flat_map (represented_actions (kinds N)) actidcs) (Cst false)) (pcs N).
Definition own_wvbls (p : process) : list nat := map (wvbl p) (seq 0 (nw (kind_of p))).
Definition keep_own (p : process) : fmla :=
  fold_left (fun x v => and_PFmla x (img_eq_PFmlaVbl ds v v)) (own_wvbls p) (Cst true).
Definition sync_part (fully : bool) (px : process * fmla) : fmla :=
  let loop := keep_own (fst px) in
  let loop := if fully then nimp_PFmla loop (pre_PFmla ds (snd px)) else loop in
  or_PFmla loop (snd px).
Definition sync_xn (fully : bool) (actidcs : list nat) : option fmla :=
  let ws := flat_map own_wvbls (pcs N) in
  if negb (distinct ws) then None
  else
    let x := all_of (map (sync_part fully) (combine (pcs N) (sync_procs actidcs))) (Cst true) in
    let keep := fold_left (fun x v => and_PFmla x (img_eq_PFmlaVbl ds v v))
                  (filter (fun v => negb (existsb (Nat.eqb v) ws)) (all_ids ds)) (Cst true) in
    Some (nimp_PFmla (and_PFmla x keep) (fold_left (fun x v => smooth_vbls ds x [v] AllCopies) random_vbls (identity_xn ds))).
End Net.
