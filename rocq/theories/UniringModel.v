(** The cycle check and the reachability check that the option -uniring selects.

    Models
      - /repo/src/xfmlae.cc:219-327   Fmlae::uniring_cycle_ck,
      - /repo/src/xfmlae.cc:329-367   Fmlae::uniring_weak_convergence_ck,
      - /repo/src/pfmla.h:262-275     ensure_ctx_PFmla.

    Loops take a [fuel] argument; [None] means that it ran out. *)
From Coq Require Import List Arith Bool.
From Verif Require Import FmlaModel.
Import ListNotations.

Section Uniring.
Variable ds : list nat.
(** The processes in the order of the table *)
Variable ps : list proc.

(** pfmla.h:262-275: a constant becomes a formula with a context. *)
Definition ensure_ctx (a : fmla) : fmla := match a with Cst b => Mdd (fun _ => b) | Mdd f => Mdd f end.

(** xfmlae.cc:250-252: one process has its turn. *)
Definition turn (span1 : fmla) (p : proc) : fmla :=
  or_PFmla (nimp_PFmla span1 (pre_PFmla ds (xn p))) (img2_PFmla ds (xn p) span1 (wvbls p)).
(** xfmlae.cc:247-253: from the last process to the first *)
Definition sweep (span0 : fmla) : fmla := fold_left turn (rev ps) span0.

(** xfmlae.cc:246-271.  [ret] is [Some limit] while the pointer ret_nlayers is not null ([limit] is the value it
    points to); [done] is the value already written through it.  The result: the fixpoint and the number written,
    or the number of layers that is too large. *)
Inductive sweeps_result := TooMany (nlayers : nat) | Stable (span : fmla) (nlayers : option nat).
Fixpoint sweeps (fuel : nat) (inv : option fmla) (ret done : option nat) (nlayers : nat) (span0 : fmla)
  : option sweeps_result :=
  match fuel with
  | 0 => None
  | S fuel' =>
      let span1 := sweep span0 in
      if equiv_ck ds span0 span1
      then Some (Stable span0 (match ret with Some _ => Some nlayers | None => done end))
      else
        match ret with
        | None => sweeps fuel' inv None done nlayers span1
        | Some limit =>
            if match inv with Some i => subseteq_ck ds span0 i | None => false end
            then sweeps fuel' inv None (Some nlayers) nlayers span1
            else
              let nlayers := nlayers + 1 in
              if (0 <? limit) && (limit <? nlayers) then Some (TooMany nlayers)
              else sweeps fuel' inv ret done nlayers span1
        end
  end.

(** xfmlae.cc:238-242 *)
Definition first_span (assumed : option fmla) : fmla :=
  let span0 := ensure_ctx (and_PFmla (xpre ds ps) (ximg ds ps)) in
  match assumed with Some a => and_PFmla span0 a | None => span0 end.

(** xfmlae.cc:276-286: one more sweep, collecting the states on the way.  The pair is (span1, span0). *)
Definition collect (st : fmla * fmla) (p : proc) : fmla * fmla :=
  (turn (fst st) p, or_PFmla (snd st) (img2_PFmla ds (xn p) (fst st) (wvbls p))).
Definition collected (span0 : fmla) : fmla := snd (fold_left collect (rev ps) (span0, span0)).

(** What the caller sees: too many layers; a Claim fails and the program stops; or the returned boolean, the set
    written to *scc and the number written to *ret_nlayers. *)
Inductive ring_answer :=
| Layers (nlayers : nat)
| Stopped
| Cycles (found : bool) (scc : fmla) (nlayers : option nat).
Definition uniring_cycle_ck (fuel : nat) (ret : option nat) (inv assumed : option fmla) : option ring_answer :=
  match sweeps fuel inv ret None 1 (first_span assumed) with
  | None => None
  | Some (TooMany n) => Some (Layers n)
  | Some (Stable span n) =>
      let span0 := collected (and_PFmla span (xpre ds ps)) in
      if subseteq_ck ds span0 (xpre ds ps) then Some (Cycles (sat_ck ds span0) span0 n) else Some Stopped
  end.

(** xfmlae.cc:346-356: the processes from the last to the first; [Some]: everything is resolved. *)
Definition back (inv : fmla) (span0 : fmla) (p : proc) : fmla :=
  let span0 := nimp_PFmla (pre2_PFmla ds (xn p) span0 (wvbls p)) inv in
  nimp_PFmla span0 (pre2_PFmla ds (xn p) (and_PFmla (img2_PFmla ds (xn p) span0 (wvbls p)) inv) (wvbls p)).
Fixpoint back_sweep (inv : fmla) (qs : list proc) (nlayers : nat) (span0 : fmla) : nat * fmla * bool :=
  match qs with
  | [] => (nlayers, span0, false)
  | p :: qs' =>
      if negb (sat_ck ds span0) then (nlayers, span0, true)
      else back_sweep inv qs' (nlayers + 1) (back inv span0 p)
  end.
(** xfmlae.cc:343-362 *)
Fixpoint back_loop (fuel : nat) (inv : fmla) (nlayers : nat) (span0 : fmla) : option (bool * nat) :=
  match fuel with
  | 0 => None
  | S fuel' =>
      match back_sweep inv (rev ps) nlayers span0 with
      | (n, _, true) => Some (true, n)
      | (n, span1, false) => if equiv_ck ds span1 span0 then Some (false, n) else back_loop fuel' inv n span1
      end
  end.
(** xfmlae.cc:329-367: the answer and the number of layers *)
Definition uniring_weak_convergence_ck (fuel : nat) (inv assumed : fmla) : option (bool * nat) :=
  let span0 := nimp_PFmla assumed inv in
  if negb (subseteq_ck ds span0 (xpre ds ps)) then Some (false, 1)
  else back_loop fuel inv 1 (fold_left (fun x p => nimp_PFmla x (pre_PFmla ds (xn p))) (firstn (length ps - 1) ps) span0).
End Uniring.
