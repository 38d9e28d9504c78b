(** The choice of candidate actions and the reading of given actions.

    Models
      - /repo/src/xnsys.cc:1056-1262  candidate_actions,
      - /repo/src/xnpc.cc:176-300     Pc::actions, PcSymm::actions,
      - /repo/src/xnsys.cc:578-636    Sys::commit_initialization. *)
From Coq Require Import List Arith Bool.
From Verif Require Import FinLib Radix FmlaModel ActModel NetModel.
Import ListNotations.

(** xnsys.hh:178-236, xnspec.hh:326-353.  The parts of a system that matter here.  The invariant
    style and scope are reduced to the tests made on them. *)
Record system := mkSystem {
  s_net : network;
  s_invariant : fmla;
  s_assume : fmla;            (** closed_assume *)
  s_shadow : fmla;            (** shadow_pfmla *)
  s_active_shadow : bool;     (** spec->active_shadow_ck() *)
  s_direct_scope : bool;      (** invariant_scope == DirectInvariant *)
  s_future_closed : bool      (** invariant_style == FutureAndClosed *)
}.

Inductive verdict := Kept | Rejected | Deleted | Skipped.

Section Cand.
Variable S : system.
Notation N := (s_net S).
Notation ds := (vdoms (s_net S)).

Definition role_at (v : nat) : role := nth v (vroles N) Direct.
(** xnspec.hh:212-222 for variables *)
Definition vbl_pure_shadow (v : nat) : bool := match role_at v with Shadow => true | _ => false end.
Definition vbl_shadow (v : nat) : bool := match role_at v with Puppet => false | _ => true end.
Definition vbl_direct (v : nat) : bool := match role_at v with Direct => true | _ => false end.
(** puppet_pfmla_list_id (xnsys.cc:135-143) and xnsys.hh:133-135 *)
Definition puppet_ids : list nat := filter (fun v => negb (vbl_pure_shadow v)) (all_ids ds).
Definition smooth_puppet (f : fmla) : fmla := smooth_vbls ds f puppet_ids AllCopies.
(** xnsys.cc:586-600 *)
Definition shadow_self : fmla :=
  fold_left (fun x v => and_PFmla x (img_eq_PFmlaVbl ds v v)) (filter vbl_shadow (all_ids ds)) (Cst true).
Definition shadow_puppet_synthesis : bool := existsb (fun v => negb (vbl_direct v)) (all_ids ds).
(** xnsys.cc:1067 *)
Definition hi_invariant : fmla := and_PFmla (s_invariant S) (s_assume S).

(** xnsys.cc:1121-1163.  The flags computed by the loop over written variables.  [waccess] and the
    symmetric variable of an access have the same role. *)
Section Loop.
Variables (p : process) (k : pcsymm) (v : list nat).
Definition keeps (w : nat) : bool := assign k v w =? a_dom (waccess k w).
Definition puppet_selfloop : bool :=
  forallb (fun w =>
      if pure_shadow_ck (waccess k w) then true
      else if random_write_ck (waccess k w) then false
      else if synt_writeonly_ck (waccess k w) then keeps w
      else assign k v w =? aguard k v w) (seq 0 (nw k)).
Definition shadow_selfloop : bool :=
  forallb (fun w => negb (pure_shadow_ck (waccess k w)) || keeps w) (seq 0 (nw k)).
Definition shadow_full_img : bool :=
  forallb (fun w => negb (pure_shadow_ck (waccess k w)) || negb (keeps w)) (seq 0 (nw k)).
Definition shadow_exists : bool := existsb (fun w => pure_shadow_ck (waccess k w)) (seq 0 (nw k)).
(** xnsys.cc:1127-1163: what the shadow protocol of the process may do, restricted to the shadow
    variables of the action *)
Definition shadow_xn : fmla :=
  let x := fold_left (fun x w =>
      if pure_shadow_ck (waccess k w) then
        if keeps w then and_PFmla x (img_eq_PFmlaVbl ds (wvbl N p w) (wvbl N p w))
        else smooth_vbls ds (and_PFmla x (img_eqc_PFmlaVbl ds (wvbl N p w) (assign k v w))) [wvbl N p w] Pre
      else x) (seq 0 (nw k)) (smooth_puppet (p_shadow p)) in
  fold_left (fun x i =>
      if negb (write_ck (acc k i)) && pure_shadow_ck (acc k i) then smooth_vbls ds x [rvbl p i] AllCopies else x)
    (seq 0 (nr k)) x.
End Loop.

(** xnsys.cc:1196-1228.  The tests that concern the shadow protocol of the process. *)
Definition judge_shadow (p : process) (k : pcsymm) (v : list nat) (pc_xn : fmla) : verdict :=
  let active := subseteq_ck ds hi_invariant (pre_PFmla ds (s_shadow S)) in
  if negb (sat_ck ds (p_shadow p)) then (if shadow_full_img k v then Kept else Rejected)
  else if active && puppet_selfloop k v then Rejected
  else if (shadow_exists k && shadow_selfloop k v) || puppet_selfloop k v
  then (if s_active_shadow S then Rejected else Kept)
  else if active || s_active_shadow S
  then (if equiv_ck ds (smooth_puppet pc_xn) (shadow_xn p k v) then Kept else Deleted)
  else Kept.
(** xnsys.cc:1230-1249 *)
Definition judge_direct (act_xn : fmla) : verdict :=
  let closed :=
    if s_direct_scope S then
      if negb (subseteq_ck ds (img1_PFmla ds act_xn hi_invariant) (s_invariant S)) then Rejected
      else if negb (s_future_closed S)
              && negb (subseteq_ck ds (and_PFmla act_xn hi_invariant) (or_PFmla (s_shadow S) shadow_self))
      then Rejected else Kept
    else Kept in
  match closed with
  | Kept => if overlap_ck ds (pre_PFmla ds act_xn) (s_assume S) then Kept else Skipped
  | o => o
  end.
(** xnsys.cc:1081-1253: the body of the loop for one action that represents itself *)
Definition judge (lightweight : bool) (actidx : nat) : verdict :=
  let a := act_of (kinds N) actidx in
  let k := nth (act_pc a) (kinds N) pc0 in
  match some_memb N (act_pc a) with
  | None => Skipped
  | Some ip =>
      let p := snd ip in
      let pc_xn := represented_xns_of_pc N lightweight actidx ip in
      let act_xn := action_pfmla N lightweight actidx in
      if negb (sat_ck ds act_xn) then Skipped
      else if subseteq_ck ds pc_xn (p_forbid p) then Rejected
      else if sat_ck ds (p_permit p) && negb (subseteq_ck ds pc_xn (p_permit p)) then Rejected
      else if puppet_selfloop k (vals a) && shadow_selfloop k (vals a) then Rejected
      else if negb (subseteq_ck ds (img1_PFmla ds act_xn (s_assume S)) (s_assume S)) then Rejected
      else if negb (overlap_ck ds (s_assume S) (pre_PFmla ds act_xn)) then Deleted
      else if negb (overlap_ck ds (smooth_puppet (img_PFmla ds act_xn)) hi_invariant) then Deleted
      else match judge_shadow p k (vals a) pc_xn with
           | Kept => judge_direct act_xn
           | o => o
           end
  end.

Definition verdict_eqb (x y : verdict) : bool :=
  match x, y with
  | Kept, Kept | Rejected, Rejected | Deleted, Deleted | Skipped, Skipped => true | _, _ => false end.
(** xnsys.cc:1081-1086 *)
Definition represents_itself (actidx : nat) : bool :=
  match representative_action_index (kinds N) actidx with Some r => r =? actidx | None => false end.
Definition listed_as (o : verdict) (lightweight : bool) : list nat :=
  filter (fun a => represents_itself a && verdict_eqb (judge lightweight a) o) (seq 0 (total_acts (kinds N))).
(** xnsys.cc:1056-1262: the answer, the candidates, the deleted and the rejected actions. *)
Definition candidate_actions (lightweight : bool) : bool * (list nat * list nat * list nat) :=
  if negb (sat_ck ds (s_invariant S)) then (false, ([], [], []))
  else if negb (sat_ck ds hi_invariant) then (false, ([], [], []))
  else if tautology_ck ds (s_invariant S) && negb shadow_puppet_synthesis then (true, ([], [], []))
  else
    let candidates := listed_as Kept lightweight in
    (negb (length candidates =? 0), (candidates, listed_as Deleted lightweight, listed_as Rejected lightweight)).
End Cand.

Section Given.
Variable N : network.
Notation ds := (vdoms N).
(** xnpc.cc:176-248, Pc::actions.  One action number per combination of read values and written
    values of a transition.  [fuel] bounds the number of iterations; [None] means it ran out, or
    that no state could be chosen. *)
Fixpoint set_where (cond : nat -> bool) (val : nat -> nat) (i : nat) (l : list nat) : list nat :=
  match l with [] => [] | x :: l' => (if cond i then val i else x) :: set_where cond val (Datatypes.S i) l' end.
(** xnpc.cc:219-232 *)
Fixpoint generalise (k : pcsymm) (p : process) (img_pf : fmla) (ws : list nat) (tmp : fmla) (img_state : list nat)
  : fmla * list nat :=
  match ws with
  | [] => (tmp, img_state)
  | w :: ws' =>
      if wdomsz (waccess k w) =? a_dom (waccess k w) + 1 then
        let pf := smooth_vbls ds tmp [wvbl N p w] AllCopies in
        if subseteq_ck ds pf img_pf
        then generalise k p img_pf ws' pf (upd img_state w (a_dom (waccess k w)))
        else generalise k p img_pf ws' tmp img_state
      else generalise k p img_pf ws' tmp img_state
  end.
(** xnpc.cc:213-240 *)
Fixpoint img_loop (fuel : nat) (k : pcsymm) (p : process) (pre_state : list nat) (img_pf : fmla) (ret : list nat)
  : option (list nat) :=
  match fuel with
  | 0 => None
  | Datatypes.S fuel' =>
      if sat_ck ds img_pf then
        match state_of_PFmla ds img_pf (own_wvbls N p) with
        | None => None
        | Some img_state =>
            let (tmp, img_state) := generalise k p img_pf (seq 0 (nw k)) (of_state ds img_state (own_wvbls N p)) img_state in
            img_loop fuel' k p pre_state (nimp_PFmla img_pf tmp)
              (ret ++ [id_of (kinds N) {| act_pc := p_kind p; vals := pre_state ++ img_state |}])
        end
      else Some ret
  end.
(** xnpc.cc:197-211 *)
Definition smooth_unread (k : pcsymm) (p : process) (pre_pf : fmla) : fmla :=
  fold_left (fun x i => if negb (synt_read_ck (acc k i)) then smooth_vbls ds x [rvbl p i] AllCopies else x)
    (seq 0 (nr k)) pre_pf.
Definition fix_random (k : pcsymm) (p : process) (img_pf : fmla) : fmla :=
  fold_left (fun x i => if random_write_ck (acc k i)
                        then and_PFmla (smooth_vbls ds x [rvbl p i] AllCopies) (eqc_PFmlaVbl ds (rvbl p i) 0) else x)
    (seq 0 (nr k)) img_pf.
Fixpoint pre_loop (fuel : nat) (k : pcsymm) (p : process) (x : fmla) (ret : list nat) : option (list nat) :=
  match fuel with
  | 0 => None
  | Datatypes.S fuel' =>
      if sat_ck ds x then
        match state_of_PFmla ds x (p_vbls p) with
        | None => None
        | Some pre_state =>
            let pre_pf := smooth_unread k p (of_state ds pre_state (p_vbls p)) in
            let pre_state := set_where (fun i => negb (synt_read_ck (acc k i))) (fun _ => 0) 0 pre_state in
            let img_pf := fix_random k p (img1_PFmla ds x pre_pf) in
            match img_loop fuel' k p pre_state img_pf ret with
            | None => None
            | Some ret => pre_loop fuel' k p (nimp_PFmla x pre_pf) ret
            end
        end
      else Some ret
  end.
Definition pc_actions (fuel : nat) (p : process) : option (list nat) :=
  pre_loop fuel (kind_of N p) p (and_PFmla (p_puppet p) (p_assume p)) [].
(** xnpc.cc:250-273, PcSymm::actions: those of the representative process, or of all members. *)
Definition option_app (x y : option (list nat)) : option (list nat) :=
  match x, y with Some x, Some y => Some (x ++ y) | _, _ => None end.
Definition kind_actions (fuel : nat) (k : nat) : option (list nat) :=
  match representative N k with
  | Some ip => pc_actions fuel (snd ip)
  | None => fold_left (fun acc ip => option_app acc (pc_actions fuel (snd ip))) (membs N k) (Some [])
  end.
(** xnsys.cc:615-625 (the order of the set is dropped): the given actions. *)
Definition representatives (l : list nat) : list nat :=
  flat_map (fun a => match representative_action_index (kinds N) a with Some r => [r] | None => [] end) l.
Definition given_actions (fuel : nat) : option (list nat) :=
  fold_left (fun acc k => option_app acc (match kind_actions fuel k with Some l => Some (representatives l) | None => None end))
    (seq 0 (length (kinds N))) (Some []).
End Given.
