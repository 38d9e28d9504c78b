(** Model of /repo/src/stabilization.cc:58-450 (shadow_ck and stabilization_ck)
    and of the probabilistic livelock check of /repo/src/xfmlae.cc:100-155, on
    top of the state-set model ReachModel.v.

    Not modelled: messages (only which one is printed), the [uniring] option
    (stabilization.cc:350-354 and 417-421), livelock action reporting
    (stabilization.cc:370-380). *)
From Coq Require Import List Arith Bool.
From Verif Require Import ReachModel.
Import ListNotations.

(** xnspec.hh:45-69. *)
Inductive InvariantStyle := FutureAndClosed | FutureAndSilent | FutureAndShadow | FutureAndActiveShadow.
Inductive InvariantScope := DirectInvariant | ShadowInvariant | FutureInvariant.
Inductive InvariantBehav := FutureSilent | FutureShadow | FutureActiveShadow.

Definition style_eqb (a b : InvariantStyle) : bool :=
  match a, b with
  | FutureAndClosed, FutureAndClosed | FutureAndSilent, FutureAndSilent
  | FutureAndShadow, FutureAndShadow | FutureAndActiveShadow, FutureAndActiveShadow => true
  | _, _ => false
  end.
Definition scope_eqb (a b : InvariantScope) : bool :=
  match a, b with
  | DirectInvariant, DirectInvariant | ShadowInvariant, ShadowInvariant
  | FutureInvariant, FutureInvariant => true
  | _, _ => false
  end.
Definition behav_eqb (a b : InvariantBehav) : bool :=
  match a, b with
  | FutureSilent, FutureSilent | FutureShadow, FutureShadow
  | FutureActiveShadow, FutureActiveShadow => true
  | _, _ => false
  end.

(** The options of stabilization.hh:10-30 that are modelled. *)
Record options := mkOptions {
  max_nlayers : nat;
  count_convergence_layers : bool;
  count_convergence_steps : bool;
  synchronous : bool
}.

Section Stab.
Variable St : Type.
Variable eq_dec : forall x y : St, {x = y} + {x <> y}.
Variable univ : list St.

Notation pred := (St -> bool).
Notation rel := (St -> St -> bool).
Notation sat := (sat St univ).
Notation equiv := (equiv St univ).
Notation subset := (subset St univ).
Notation overlap := (overlap St univ).
Notation taut := (taut St univ).
Notation pand := (pand St eq_dec univ).
Notation por := (por St eq_dec univ).
Notation pminus := (pminus St eq_dec univ).
Notation pnot := (pnot St eq_dec univ).
Notation pre := (pre St eq_dec univ).
Notation img := (img St eq_dec univ).
Notation rtab := (rtab St eq_dec univ).
Notation requiv := (requiv St univ).

(** The parts of [Xn::Sys] used (xnsys.hh:188-220, xnspec.hh).  [same_shadow]
    relates states that agree on all but the pure puppet variables: projecting
    with proj_shadow (xnsys.hh:150) quantifies the pure puppet variables. *)
Record sys := mkSys {
  invariant : pred;
  closed_assume : pred;
  shadow_xn : rel;               (* shadow_pfmla *)
  same_shadow : rel;
  shadow_puppet : bool;          (* shadow_puppet_synthesis *)
  probabilistic : bool;          (* topology.probabilistic_ck() *)
  style : InvariantStyle;
  scope : InvariantScope;
  behav : InvariantBehav
}.

(** Operations between transition formulas and state formulas: "xn & pf"
    restricts the source, "pf.as_img()" the target. *)
Definition rand (a b : rel) : rel := rtab (fun s t => a s t && b s t).
Definition ror (a b : rel) : rel := rtab (fun s t => a s t || b s t).
Definition rminus (a b : rel) : rel := rtab (fun s t => a s t && negb (b s t)).
Definition rsrc (a : rel) (p : pred) : rel := rtab (fun s t => a s t && p s).
Definition rdst (a : rel) (p : pred) : rel := rtab (fun s t => a s t && p t).
Definition rfalse : rel := fun _ _ => false.
Definition rsubset (a b : rel) : bool := forallb (fun s => subset (a s) (b s)) univ.
(** [xn.pre()], [xn.img()]: the sources and the targets (pfmla.hh:253, 281). *)
Definition sources (a : rel) : pred := pre a (fun _ => true).
Definition targets (a : rel) : pred := img a (fun _ => true).
Definition eqb_st : rel := fun s t => if eq_dec s t then true else false.
(** [proj_shadow] on state and on transition formulas (xnsys.hh:150). *)
Definition proj (same : rel) (p : pred) : pred :=
  tab St eq_dec univ (fun s => existsb (fun t => same s t && p t) univ).
Definition projr (same r : rel) : rel :=
  rtab (fun s s' => existsb (fun t => same s t && existsb (fun t' => same s' t' && r t t') univ) univ).

(** * Probabilistic livelock check, xfmlae.cc:108-155 *)

(** [pcs]: the transition relations of the processes.  One pass of the loop body
    xfmlae.cc:127-142. *)
Definition unresolved (pcs : list rel) (progress : rel) (span0 : pred) : pred :=
  fold_left (fun span1 pc =>
    let resolved := por (sources (rand pc progress)) (pre pc (pnot span0)) in
    por span1 (pminus (sources pc) resolved)) pcs (fun _ => false).

(** The do-while loop xfmlae.cc:122-143. *)
Fixpoint prob_loop (fuel : nat) (pcs : list rel) (progress : rel) (span0 span1 : pred) : option pred :=
  match fuel with
  | 0 => None
  | S fuel' =>
      let span0 := pand span0 span1 in
      let span1 := unresolved pcs progress span0 in
      if subset span0 span1 then Some span0 else prob_loop fuel' pcs progress span0 span1
  end.

(** The do-while loop xfmlae.cc:146-150. *)
Fixpoint prob_img_loop (fuel : nat) (xn : rel) (span0 span1 : pred) : option pred :=
  match fuel with
  | 0 => None
  | S fuel' =>
      let span0 := pand span0 span1 in
      let span1 := img xn span0 in
      if subset span0 span1 then Some span0 else prob_img_loop fuel' xn span0 span1
  end.

(** [probabilistic_livelock_ck], with and without the [scc] argument; [xn] is the
    global transition relation. *)
Definition prob_livelock_ck (fuel : nat) (pcs : list rel) (assumed : pred) (progress xn : rel)
  : option bool :=
  match prob_loop fuel pcs progress assumed (sources xn) with
  | Some span => Some (sat span)
  | None => None
  end.
Definition prob_livelock_scc (fuel : nat) (pcs : list rel) (assumed : pred) (progress xn : rel)
  : option (bool * pred) :=
  match prob_loop fuel pcs progress assumed (sources xn) with
  | Some span =>
      match prob_img_loop fuel xn span (targets xn) with
      | Some scc => Some (sat scc, scc)
      | None => None
      end
  | None => None
  end.

(** * shadow_ck, stabilization.cc:58-275 *)

Inductive shadow_result :=
| ShadowFail
| ShadowAbort            (* the Claim of line 176 fails *)
| ShadowOk (hi_invariant : pred).

(** The loop stabilization.cc:155-174, returning hi_invariant, hi_live and hi_self. *)
Fixpoint shadow_loop (fuel loop_fuel : nat) (lo : rel) (beg fin : pred) (hi_inv : pred) (hi_live hi_self : rel)
  : option (pred * rel * rel) :=
  match loop_fuel with
  | 0 => None
  | S loop_fuel' =>
      match closure_within St eq_dec univ fuel lo hi_inv with
      | None => None
      | Some old_inv =>
          let hi_live := rdst (rsrc hi_live old_inv) old_inv in
          let hi_self := rdst (rsrc hi_self old_inv) old_inv in
          match img_reach St eq_dec univ fuel hi_self (por beg (targets hi_live)),
                pre_reach St eq_dec univ fuel hi_self (por fin (sources hi_live)) with
          | Some fw, Some bw =>
              let hi_inv := pand (pand old_inv fw) bw in
              if equiv old_inv hi_inv then Some (hi_inv, hi_live, hi_self)
              else shadow_loop fuel loop_fuel' lo beg fin hi_inv hi_live hi_self
          | _, _ => None
          end
      end
  end.

(** Lines 80-111: neither shadow/puppet variables nor a "future" invariant. *)
Definition shadow_direct (s : sys) (lo hi : rel) : shadow_result :=
  let inv := pand (invariant s) (closed_assume s) in
  if negb (subset (img lo inv) inv) then ShadowFail
  else if negb (style_eqb (style s) FutureAndClosed)
          && negb (rsubset (rsrc (shadow_xn s) inv) hi) then ShadowFail
  else if negb (style_eqb (style s) FutureAndClosed)
          && negb (rsubset (rsrc lo inv) (shadow_xn s)) then ShadowFail
  else if (behav_eqb (behav s) FutureActiveShadow || style_eqb (style s) FutureAndActiveShadow)
          && negb (subset inv (sources hi)) then ShadowFail
  else ShadowOk inv.

(** Lines 230-256: the "active shadow" requirement.  [Some true] is acceptable. *)
Definition active_ck (fuel : nat) (lo hi hi_live shadow_self : rel) (lo_scc hi_inv : pred) : option bool :=
  if overlap lo_scc (sources (rand lo shadow_self)) then Some false
  else
    let bad := sources (rand lo shadow_self) in
    let hi_scc_xn := rtab (fun s t => hi_live s t && negb (bad s)) in
    match cycle_ck_within St eq_dec univ fuel hi_scc_xn hi_inv with
    | None => None
    | Some c =>
        if negb (cyc_found St c) then Some false
        else
          match cyc_scc St c with
          | None => None
          | Some hi_scc =>
              match weak_convergence_ck St eq_dec univ fuel hi hi_scc hi_inv None with
              | Some (b, _) => Some b
              | None => None
              end
          end
    end.

(** Lines 258-265: enlarge the invariant for the (active) shadow styles. *)
Definition enlarge (fuel : nat) (lo xn : rel) (hi_inv : pred) : option pred :=
  match pre_reach St eq_dec univ fuel xn hi_inv with
  | Some p => closure_within St eq_dec univ fuel lo p
  | None => None
  end.

(** Lines 113-274. *)
Definition shadow_general (fuel : nat) (s : sys) (pcs : list rel) (lo hi : rel) (lo_scc : pred)
  : option shadow_result :=
  let inv := pand (invariant s) (closed_assume s) in
  let shadow_self := rsrc (same_shadow s) inv in
  let shadow_live := rsrc (projr (same_shadow s) (shadow_xn s)) inv in
  (* lines 118-131 *)
  let nonprogress :=
    if probabilistic s then prob_livelock_ck fuel pcs inv shadow_live lo
    else
      match cycle_ck_within St eq_dec univ fuel (rand lo shadow_self) (pand lo_scc (sources shadow_live)) with
      | Some c => Some (cyc_found St c)
      | None => None
      end in
  match nonprogress with
  | None => None
  | Some true => Some ShadowFail
  | Some false =>
      let beg := pminus inv (targets shadow_live) in
      let fin := pminus inv (sources shadow_live) in
      let hi_self := rand hi shadow_self in
      let hi_live := rand hi shadow_live in
      let hi_live := if style_eqb (style s) FutureAndSilent then rfalse else hi_live in
      let hi_self := if style_eqb (style s) FutureAndSilent then rfalse else hi_self in
      let hi_self := if style_eqb (style s) FutureAndActiveShadow then rfalse else hi_self in
      let hi_inv := pminus inv (sources (rminus lo (ror hi_live hi_self))) in
      match shadow_loop fuel fuel lo beg fin hi_inv hi_live hi_self with
      | None => None
      | Some (hi_inv, hi_live, hi_self) =>
          if negb (rsubset (rsrc lo hi_inv) (ror hi_live hi_self)) then Some ShadowAbort
          else if scope_eqb (scope s) FutureInvariant && negb (sat hi_inv) then Some ShadowFail
          else if negb (scope_eqb (scope s) FutureInvariant) &&
                  negb (equiv (proj (same_shadow s) inv) (proj (same_shadow s) hi_inv)) then Some ShadowFail
          else if negb (scope_eqb (scope s) FutureInvariant) &&
                  negb (requiv (projr (same_shadow s) shadow_live) (projr (same_shadow s) hi_live)) then Some ShadowFail
          else
            let outside :=
              if probabilistic s then prob_livelock_ck fuel pcs (pminus lo_scc hi_inv) rfalse lo
              else Some (negb (subset lo_scc hi_inv)) in
            match outside with
            | None => None
            | Some true => Some ShadowFail
            | Some false =>
                let active :=
                  if behav_eqb (behav s) FutureActiveShadow
                  then active_ck fuel lo hi hi_live shadow_self lo_scc hi_inv else Some true in
                match active with
                | None => None
                | Some false => Some ShadowFail
                | Some true =>
                    let enlarged :=
                      match style s with
                      | FutureAndShadow => enlarge fuel lo (rand hi (ror shadow_self shadow_live)) hi_inv
                      | FutureAndActiveShadow => enlarge fuel lo (rand hi shadow_live) hi_inv
                      | _ => Some hi_inv
                      end in
                    match enlarged with
                    | None => None
                    | Some hi_inv =>
                        if scope_eqb (scope s) DirectInvariant && negb (equiv hi_inv inv)
                        then Some ShadowFail else Some (ShadowOk hi_inv)
                    end
                end
            end
      end
  end.

Definition shadow_ck (fuel : nat) (s : sys) (pcs : list rel) (lo hi : rel) (lo_scc : pred)
  : option shadow_result :=
  if behav_eqb (behav s) FutureSilent && sat lo_scc then Some ShadowFail
  else if negb (shadow_puppet s) && negb (scope_eqb (scope s) FutureInvariant)
  then Some (shadow_direct s lo hi)
  else shadow_general fuel s pcs lo hi lo_scc.

(** * stabilization_ck, stabilization.cc:277-450 *)

Inductive verdict :=
| NoOverlap | SelfLoop | NotClosed | Deadlock | TooManyLayers | Livelock
| BadInvariant | DeadlockInNew | NotWeaklyConverging
| Aborted
| Accepted (inv : pred) (nlayers reach_nlayers : nat).

(** Lines 344-359: the set of cyclic states and the number of layers. *)
Definition find_cycles (fuel : nat) (s : sys) (opt : options) (pcs : list rel) (lo : rel)
  : option (pred * nat) :=
  if probabilistic s then
    match closure_within St eq_dec univ fuel lo (pand (invariant s) (closed_assume s)) with
    | None => None
    | Some t =>
        match prob_livelock_scc fuel pcs (closed_assume s) (fun a b => negb (t a) && t b) lo with
        | Some (_, scc) => Some (scc, 1)
        | None => None
        end
    end
  else
    match cycle_ck St eq_dec univ fuel lo (Some (max_nlayers opt))
            (if count_convergence_layers opt then Some (invariant s) else None)
            (Some (closed_assume s)) with
    | None => None
    | Some c =>
        Some (match cyc_scc St c with Some p => p | None => fun _ => false end,
              match cyc_layers St c with Some n => n | None => 0 end)
    end.

Definition stabilization_ck (fuel : nat) (s : sys) (opt : options) (pcs : list rel) (lo hi : rel)
  : option verdict :=
  let A := closed_assume s in
  if negb (overlap (invariant s) A) then Some NoOverlap
  else if negb (probabilistic s) && overlap A (sources (rand lo eqb_st)) then Some SelfLoop
  else if negb (taut A) && sat (pminus (img lo A) A) then Some NotClosed
  else if negb (subset (pand (pnot (invariant s)) A) (sources hi)) then Some Deadlock
  else
    match find_cycles fuel s opt pcs lo with
    | None => None
    | Some (scc, nlayers) =>
        if (0 <? max_nlayers opt) && (max_nlayers opt <? nlayers) then Some TooManyLayers
        else if negb (subset scc (invariant s)) then Some Livelock
        else
          match shadow_ck fuel s pcs lo hi scc with
          | None => None
          | Some ShadowFail => Some BadInvariant
          | Some ShadowAbort => Some Aborted
          | Some (ShadowOk hi_inv) =>
              if negb (subset (pand (pnot hi_inv) A) (sources hi)) then Some DeadlockInNew
              else
                let reach :=
                  if negb (requiv lo hi) then
                    weak_convergence_ck St eq_dec univ fuel hi hi_inv A (Some 0)
                  else if negb (synchronous opt) then
                    let inv := if count_convergence_layers opt then hi_inv
                               else por (pnot (sources lo)) scc in
                    match weak_convergence_ck St eq_dec univ fuel lo inv A (Some 0) with
                    | Some (_, n) => Some (true, n)
                    | None => None
                    end
                  else Some (true, Some nlayers) in
                match reach with
                | None => None
                | Some (false, _) => Some NotWeaklyConverging
                | Some (true, n) =>
                    let n := match n with Some n => n | None => 0 end in
                    Some (if count_convergence_steps opt
                          then Accepted hi_inv (nlayers - 1) (n - 1)
                          else Accepted hi_inv nlayers n)
                end
          end
    end.

End Stab.
