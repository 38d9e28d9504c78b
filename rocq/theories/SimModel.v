(** The interactive simulator (option -interactive).
    Models:
      - /repo/src/interactive.cc:59-404  the commands, their effects and what they print
      - /repo/src/xnpc.hh:132-134        the names of variables
      - /repo/src/pfmla.cc:59-112        cycle_ck(scc, pf), on formulas
    Not modelled: "topo", "show-all-xn" and "exit", the words of a command line other than
    "assign" (a command is given already recognised).  The text functions of the cx library
    (not in /repo) are modelled as their names say.  Integers are unbounded.  Variable i has the
    number i in the formulas (Vbl::pfmla_idx).  A random choice among n > 0 things is [r mod n]
    for an arbitrary number r; choosing among none is undefined ([None]). *)
From Coq Require Import List Arith Bool ZArith Ascii.
From Verif Require Import FinLib Radix FmlaModel CmdModel.
Import ListNotations.
Local Open Scope list_scope.

Definition text := list ascii.
Definition chr (n : nat) : ascii := ascii_of_nat n.
Definition c_open := chr 91.
Definition c_close := chr 93.
Definition c_colon := chr 58.
Definition c_eq := chr 61.
Definition c_semi := chr 59.
Definition c_minus := chr 45.
Definition c_space := chr 32.

(** WhiteSpaceChars of the cx library *)
Definition is_white (c : ascii) : bool := existsb (fun n => nat_of_ascii c =? n) [9; 10; 11; 13; 32].
Definition is_digit (c : ascii) : bool := (48 <=? nat_of_ascii c) && (nat_of_ascii c <=? 57).
(** skipds_XFile *)
Fixpoint skipds (delim : ascii -> bool) (s : text) : text :=
  match s with c :: s' => if delim c then skipds delim s' else s | [] => [] end.
(** skip_cstr_XFile: the text after [p] if it starts with [p] *)
Fixpoint skip_cstr (p s : text) : option text :=
  match p, s with
  | [], _ => Some s
  | x :: p', y :: s' => if ascii_dec x y then skip_cstr p' s' else None
  | _ :: _, [] => None
  end.
Definition skip_opt (p s : text) : text := match skip_cstr p s with Some r => r | None => s end.
(** xget_int_XFile *)
Fixpoint digits (acc : Z) (s : text) : Z * text :=
  match s with
  | c :: s' => if is_digit c then digits (10 * acc + Z.of_nat (nat_of_ascii c - 48))%Z s' else (acc, s)
  | [] => (acc, [])
  end.
Definition xget_uint (s : text) : option (Z * text) :=
  match s with c :: _ => if is_digit c then Some (digits 0 s) else None | [] => None end.
Definition xget_int (s : text) : option (Z * text) :=
  let s := skipds is_white s in
  match skip_cstr [c_minus] s with
  | Some r => option_map (fun zr => (- fst zr, snd zr)%Z) (xget_uint r)
  | None => xget_uint s
  end.
(** Printing a number *)
Fixpoint dec_loop (fuel n : nat) (tl : text) : text :=
  match fuel with
  | 0 => tl
  | S fuel' => let tl := chr (48 + n mod 10) :: tl in if n <? 10 then tl else dec_loop fuel' (n / 10) tl
  end.
Definition dec (n : nat) : text := dec_loop (S n) n [].

Inductive influence := WithinPredicate | DisplayPredicate | NotInPredicate | IgnorePredicate.
Inductive predname := PInvariant | PSilent | PCycle.

(** interactive.cc:11-32 without [conj_*], which are never used *)
Record sim := mkSim {
  s_state : list nat;
  s_mask : fmla;
  i_invariant : influence; i_silent : influence; i_cycle : influence;
  p_invariant : option fmla; p_silent : option fmla; p_cycle : option fmla
}.

Inductive command :=
| Assign (line : text)
| ShowImg | ShowPre | ShowSat | ShowState
| Step (forward : bool) (n : nat) (rnd : nat -> nat)
| SStep (n : nat)
| Randomize (order : list nat) (rnd : nat -> nat)
| Predicate (name : predname) (i : influence).
Inductive output := Lines (l : list text) | Sat (l : list (predname * bool)).

Section Sim.
Variable ds : list nat.
(** VblSymm::spec->name and symm_idx, one pair per variable *)
Variable names : list (text * nat).
(** sys.direct_pfmla, sys.invariant, sys.closed_assume *)
Variables xn invariant closed_assume : fmla.

(** xnpc.hh:132-134 *)
Definition name_of (i : nat) : text :=
  let (base, idx) := nth i names ([], 0) in base ++ [c_open] ++ dec idx ++ [c_close].

(** interactive.cc:59-81 *)
Definition vbl_delim (c : ascii) : bool :=
  (if ascii_dec c c_colon then true else false) || (if ascii_dec c c_eq then true else false) || is_white c.
Fixpoint first_vbl (is : list nat) (s : text) : option (nat * text) :=
  match is with
  | [] => None
  | i :: is' => match skip_cstr (name_of i) s with Some r => Some (i, r) | None => first_vbl is' s end
  end.
Definition parse_variable (s : text) : option (nat * text) := first_vbl (all_ids ds) (skipds vbl_delim s).

(** interactive.cc:83-102.  The fuel is enough: every round takes a name off the text. *)
Fixpoint assign_loop (fuel : nat) (s : text) (st : list nat) : list nat :=
  match fuel with
  | 0 => st
  | S fuel' =>
      match parse_variable s with
      | None => st
      | Some (i, r) =>
          let r := skip_opt [c_eq] (skip_opt [c_colon; c_eq] (skipds is_white r)) in
          match xget_int r with
          | Some (val, r') =>
              assign_loop fuel' (skip_opt [c_semi] (skipds is_white r'))
                (upd st i (Z.to_nat (val mod Z.of_nat (nth i ds 0))))
          | None => assign_loop fuel' r st
          end
      end
  end.
Definition assign (line : text) (st : list nat) : list nat := assign_loop (S (length line)) line st.

(** interactive.cc:115-124 *)
Definition change (st t : list nat) (i : nat) : list text :=
  if nth i t 0 =? nth i st 0 then [] else [name_of i ++ [c_colon; c_eq] ++ dec (nth i t 0) ++ [c_semi]].
Fixpoint join_with (delim : text) (l : list text) : text :=
  match l with [] => [] | [x] => x | x :: l' => x ++ delim ++ join_with delim l' end.
Definition diff_line (st t : list nat) : text := join_with [c_space] (flat_map (change st t) (all_ids ds)).

(** interactive.cc:112-127.  [None]: out of fuel, or the state of an unsatisfiable formula. *)
Fixpoint list_states (fuel : nat) (local_pf : fmla) : option (list (list nat)) :=
  match fuel with
  | 0 => None
  | S fuel' =>
      if sat_ck ds local_pf then
        match state_of_PFmla ds local_pf (all_ids ds) with
        | None => None
        | Some img_state =>
            option_map (cons img_state) (list_states fuel' (nimp_PFmla local_pf (of_state ds img_state (all_ids ds))))
        end
      else Some []
  end.
(** [topo.pfmla_vbl(v) != x], pfmla.hh:380-381 *)
Definition differs (v x : nat) : fmla := not_PFmla (eqc_PFmlaVbl ds v x).
(** interactive.cc:111-129 *)
Fixpoint by_vbl (st : list nat) (vs : list nat) (next : fmla) : option (list (list nat)) :=
  match vs with
  | [] => Some []
  | v :: vs' =>
      let d := differs v (nth v st 0) in
      match list_states (S (prod ds)) (and_PFmla next d) with
      | None => None
      | Some l => option_map (app l) (by_vbl st vs' (nimp_PFmla next d))
      end
  end.
(** interactive.cc:104-130: the states of the lines it makes *)
Definition next_states (forward : bool) (st : list nat) (mask : fmla) : option (list (list nat)) :=
  let pf := of_state ds st (all_ids ds) in
  by_vbl st (all_ids ds) (and_PFmla (if forward then img1_PFmla ds xn pf else pre1_PFmla ds xn pf) mask).
Definition next_options (forward : bool) (st : list nat) (mask : fmla) : option (list text) :=
  option_map (map (diff_line st)) (next_states forward st mask).

(** pfmla.cc:59-112: cycle_ck(scc, pf).  [None]: more rounds than there are sets of states, so it
    never ends. *)
Definition cycle_fuel : nat := 2 + 2 ^ prod ds.
Definition cycles_within (pf : fmla) : option fmla :=
  match fwd_loop ds cycle_fuel xn pf with
  | None => None
  | Some span => bwd_loop ds cycle_fuel xn span
  end.

(** interactive.cc:143-181 *)
Definition cached (i : influence) (c : option fmla) (f : option fmla) : option (option fmla) :=
  match i with
  | IgnorePredicate => Some c
  | _ => match c with Some _ => Some c | None => option_map Some f end
  end.
Definition masked (i : influence) (c : option fmla) (mask : fmla) : fmla :=
  match i, c with
  | WithinPredicate, Some f => and_PFmla mask f
  | NotInPredicate, Some f => and_PFmla mask (not_PFmla f)
  | _, _ => mask
  end.
Definition silent_states : fmla := and_PFmla closed_assume (not_PFmla (pre_PFmla ds xn)).
Definition reset_mask (s : sim) : option sim :=
  match cached (i_invariant s) (p_invariant s) (Some invariant),
        cached (i_silent s) (p_silent s) (Some silent_states),
        cached (i_cycle s) (p_cycle s) (cycles_within closed_assume) with
  | Some pi, Some ps, Some pc =>
      Some (mkSim (s_state s)
        (masked (i_cycle s) pc (masked (i_silent s) ps (masked (i_invariant s) pi closed_assume)))
        (i_invariant s) (i_silent s) (i_cycle s) pi ps pc)
  | _, _, _ => None
  end.
(** interactive.cc:369-391 *)
Definition set_influence (name : predname) (i : influence) (s : sim) : sim :=
  match name with
  | PInvariant => mkSim (s_state s) (s_mask s) i (i_silent s) (i_cycle s) (p_invariant s) (p_silent s) (p_cycle s)
  | PSilent => mkSim (s_state s) (s_mask s) (i_invariant s) i (i_cycle s) (p_invariant s) (p_silent s) (p_cycle s)
  | PCycle => mkSim (s_state s) (s_mask s) (i_invariant s) (i_silent s) i (p_invariant s) (p_silent s) (p_cycle s)
  end.

(** interactive.cc:183-190 *)
Definition state_pfmla (st : list nat) : fmla :=
  fold_left (fun pf i => and_PFmla pf (eqc_PFmlaVbl ds i (nth i st 0))) (seq 0 (length st)) (Cst true).
(** interactive.cc:275-291.  [None]: the predicate is displayed but was never computed. *)
Definition sat_line (name : predname) (i : influence) (c : option fmla) (st : list nat)
  : option (list (predname * bool)) :=
  match i, c with
  | IgnorePredicate, _ => Some []
  | _, Some f => Some [(name, overlap_ck ds f (state_pfmla st))]
  | _, None => None
  end.
Definition show_sat (s : sim) : option (list (predname * bool)) :=
  match sat_line PInvariant (i_invariant s) (p_invariant s) (s_state s),
        sat_line PSilent (i_silent s) (p_silent s) (s_state s),
        sat_line PCycle (i_cycle s) (p_cycle s) (s_state s) with
  | Some a, Some b, Some c => Some (a ++ b ++ c)
  | _, _, _ => None
  end.

(** interactive.cc:308-324 *)
Fixpoint step_loop (forward : bool) (mask : fmla) (n : nat) (rnd : nat -> nat) (st : list nat)
  : option (list text * list nat) :=
  match n with
  | 0 => Some ([], st)
  | S n' =>
      match next_options forward st mask with
      | None => None
      | Some lines =>
          if length lines =? 0 then Some ([], st)
          else
            let line := nth (rnd n' mod length lines) lines [] in
            option_map (fun r => (line :: fst r, snd r)) (step_loop forward mask n' rnd (assign line st))
      end
  end.
(** interactive.cc:334-347 *)
Fixpoint sstep_loop (mask : fmla) (n : nat) (st : list nat) : option (list text * list nat) :=
  match n with
  | 0 => Some ([], st)
  | S n' =>
      match next_options true st mask with
      | None => None
      | Some lines =>
          if length lines =? 0 then Some ([], st)
          else option_map (fun r => (lines ++ fst r, snd r))
                 (sstep_loop mask n' (fold_left (fun st line => assign line st) lines st))
      end
  end.

(** interactive.cc:202-213 *)
Fixpoint random_loop (rnd : nat -> nat) (vs : list nat) (pf : fmla) (st : list nat) : option (list nat) :=
  match vs with
  | [] => Some st
  | v :: vs' =>
      let vals := filter (fun j => overlap_ck ds pf (eqc_PFmlaVbl ds v j)) (seq 0 (nth v ds 0)) in
      if length vals =? 0 then None
      else
        let val := nth (rnd (length vs') mod length vals) vals 0 in
        random_loop rnd vs' (and_PFmla pf (eqc_PFmlaVbl ds v val)) (upd st v val)
  end.
(** interactive.cc:192-214; [order] is the shuffled list of variables *)
Definition randomize_state (order : list nat) (rnd : nat -> nat) (mask : fmla) (st : list nat) : option (list nat) :=
  if sat_ck ds mask then random_loop rnd order mask st else Some st.

Definition with_state (s : sim) (st : list nat) : sim :=
  mkSim st (s_mask s) (i_invariant s) (i_silent s) (i_cycle s) (p_invariant s) (p_silent s) (p_cycle s).
(** interactive.cc:234-401: one line of input.  [None]: undefined behaviour or no end. *)
Definition exec (s : sim) (c : command) : option (sim * output) :=
  match c with
  | Assign line => Some (with_state s (assign line (s_state s)), Lines [])
  | ShowImg => option_map (fun l => (s, Lines l)) (next_options true (s_state s) (s_mask s))
  | ShowPre => option_map (fun l => (s, Lines l)) (next_options false (s_state s) (s_mask s))
  | ShowSat => option_map (fun l => (s, Sat l)) (show_sat s)
  | ShowState =>
      Some (s, Lines (map (fun i => name_of i ++ [c_eq; c_eq] ++ dec (nth i (s_state s) 0)) (all_ids ds)))
  | Step forward n rnd =>
      option_map (fun r => (with_state s (snd r), Lines (fst r))) (step_loop forward (s_mask s) n rnd (s_state s))
  | SStep n => option_map (fun r => (with_state s (snd r), Lines (fst r))) (sstep_loop (s_mask s) n (s_state s))
  | Randomize order rnd =>
      option_map (fun st => (with_state s st, Lines [])) (randomize_state order rnd (s_mask s) (s_state s))
  | Predicate name i => option_map (fun s => (s, Lines [])) (reset_mask (set_influence name i s))
  end.
(** interactive.cc:216-225 *)
Definition start : sim :=
  mkSim (map (fun _ => 0) ds) closed_assume IgnorePredicate IgnorePredicate IgnorePredicate None None None.
Fixpoint session (s : sim) (cs : list command) : option (sim * list output) :=
  match cs with
  | [] => Some (s, [])
  | c :: cs' =>
      match exec s c with
      | None => None
      | Some (s', o) => option_map (fun r => (fst r, o :: snd r)) (session s' cs')
      end
  end.
End Sim.
