(** Model of the state-set algorithms of /repo/src/pfmla.cc.

    The decision-diagram package behind [PFmla] is external.  A [P::Fmla] is
    modelled by its meaning, a set of states, and an [X::Fmla] by a transition
    relation between states.  States form an arbitrary finite type: [univ]
    lists them all (the theorems assume that it does) and equality is decidable.
    The representation shortcuts of pfmla.c are modelled separately
    (FmlaModel.v).

    Loops take a [fuel] argument; [None] means that it ran out. *)
From Coq Require Import List Arith Bool.
Import ListNotations.

Section Reach.
Variable St : Type.
Variable eq_dec : forall x y : St, {x = y} + {x <> y}.
Variable univ : list St.

Definition pred := St -> bool.
Definition rel := St -> St -> bool.

(** Tabulate a set.  The identity on sets; it only makes the model executable
    in reasonable time. *)
Definition tab (p : pred) : pred :=
  let l := filter p univ in
  fun s => if in_dec eq_dec s l then true else false.

(** [sat_ck], [equiv_ck], [subseteq_ck], [tautology_ck], [overlap_ck] and the
    set operations of pfmla.hh:93-200. *)
Definition sat (p : pred) : bool := existsb p univ.
Definition equiv (p q : pred) : bool := forallb (fun s => Bool.eqb (p s) (q s)) univ.
Definition subset (p q : pred) : bool := forallb (fun s => implb (p s) (q s)) univ.
Definition taut (p : pred) : bool := forallb p univ.
Definition overlap (p q : pred) : bool := existsb (fun s => p s && q s) univ.
Definition pand (p q : pred) : pred := tab (fun s => p s && q s).
Definition por (p q : pred) : pred := tab (fun s => p s || q s).
Definition pminus (p q : pred) : pred := tab (fun s => p s && negb (q s)).
Definition pnot (p : pred) : pred := tab (fun s => negb (p s)).

(** [PFmla::pre(pf)] and [PFmla::img(pf)] (pfmla.hh:246-290; existential
    quantification done by the decision-diagram package). *)
Definition pre (r : rel) (p : pred) : pred :=
  tab (fun s => existsb (fun t => r s t && p t) univ).
Definition img (r : rel) (p : pred) : pred :=
  tab (fun t => existsb (fun s => p s && r s t) univ).

(** The loop shared by pfmla.cc:18-24, 34-40 and 467-473. *)
Fixpoint reach_loop (step : pred -> pred) (fuel : nat) (visit layer : pred) : option pred :=
  match fuel with
  | 0 => None
  | S fuel' =>
      if sat layer then
        let visit' := por visit layer in
        reach_loop step fuel' visit' (pminus (step layer) visit')
      else Some visit
  end.

(** [PFmla::pre_reach], pfmla.cc:15-25. *)
Definition pre_reach (fuel : nat) (r : rel) (p : pred) : option pred :=
  reach_loop (pre r) fuel p (pminus (pre r p) p).

(** [PFmla::img_reach], pfmla.cc:31-41. *)
Definition img_reach (fuel : nat) (r : rel) (p : pred) : option pred :=
  reach_loop (img r) fuel p (pminus (img r p) p).

(** [UndirectedReachability], pfmla.cc:464-474. *)
Definition undirected_reach (fuel : nat) (r : rel) (p : pred) : option pred :=
  let step := fun l => por (pre r l) (img r l) in
  reach_loop step fuel p (pminus (step p) p).

(** [PFmla::closure_within], pfmla.cc:46-50. *)
Definition closure_within (fuel : nat) (r : rel) (p : pred) : option pred :=
  match pre_reach fuel r (pnot p) with
  | Some q => Some (pminus p q)
  | None => None
  end.

(** First loop of [PFmla::cycle_ck], pfmla.cc:66-86.  [ret] is [Some limit] while
    the pointer ret_nlayers is not null ([limit] is the value it points to);
    [done] is the value already written through it. *)
Inductive fwd_result :=
| TooMany (nlayers : nat)
| Fixpoint_at (span : pred) (nlayers : option nat).

Fixpoint cyc_fwd (fuel : nat) (r : rel) (inv : option pred) (ret done : option nat)
    (nlayers : nat) (span0 : pred) : option fwd_result :=
  match fuel with
  | 0 => None
  | S fuel' =>
      let span1 := img r span0 in
      if equiv span0 span1
      then Some (Fixpoint_at span0 (match ret with Some _ => Some nlayers | None => done end))
      else
        match ret with
        | None => cyc_fwd fuel' r inv None done nlayers span1
        | Some limit =>
            if match inv with Some i => subset span0 i | None => false end
            then cyc_fwd fuel' r inv None (Some nlayers) nlayers span1
            else
              let nlayers := nlayers + 1 in
              if (0 <? limit) && (limit <? nlayers) then Some (TooMany nlayers)
              else cyc_fwd fuel' r inv ret done nlayers span1
        end
  end.

(** Second loop, pfmla.cc:90-94. *)
Fixpoint cyc_bwd (fuel : nat) (r : rel) (span0 : pred) : option pred :=
  match fuel with
  | 0 => None
  | S fuel' =>
      let span1 := pand span0 (pre r span0) in
      if equiv span0 span1 then Some span0 else cyc_bwd fuel' r span1
  end.

(** What the caller sees: the returned boolean, the set written to *scc (if
    written) and the number written to *ret_nlayers (if written). *)
Record cycle_result := mkCycle {
  cyc_found : bool;
  cyc_scc : option pred;
  cyc_layers : option nat
}.

(** pfmla.cc:63-65: the start of the iteration; the constant true without
    [assumed]. *)
Definition start_states (assumed : option pred) : pred :=
  match assumed with Some a => a | None => fun _ => true end.

(** [PFmla::cycle_ck], pfmla.cc:59-100. *)
Definition cycle_ck (fuel : nat) (r : rel) (ret : option nat) (inv assumed : option pred)
  : option cycle_result :=
  match cyc_fwd fuel r inv ret None 1 (start_states assumed) with
  | None => None
  | Some (TooMany n) => Some (mkCycle false None (Some n))
  | Some (Fixpoint_at span n) =>
      match cyc_bwd fuel r span with
      | None => None
      | Some scc => Some (mkCycle (sat scc) (Some scc) n)
      end
  end.

(** [PFmla::cycle_ck(scc, pf)] and [cycle_ck(pf)], pfmla.cc:109-127. *)
Definition cycle_ck_within (fuel : nat) (r : rel) (p : pred) : option cycle_result :=
  cycle_ck fuel r None None (Some p).

(** [weak_convergence_ck(xn, invariant)], stabilization.cc:11-25. *)
Definition weak_convergence_all (fuel : nat) (r : rel) (inv : pred) : option bool :=
  match pre_reach fuel r inv with Some p => Some (taut p) | None => None end.

(** [weak_convergence_ck(ret_nlayers, xn, invariant, assumed)],
    stabilization.cc:27-49: the returned boolean and *ret_nlayers afterwards. *)
Fixpoint weak_loop (fuel : nat) (r : rel) (assumed : pred) (ret : option nat) (nlayers : nat)
    (span0 : pred) : option (bool * option nat) :=
  match fuel with
  | 0 => None
  | S fuel' =>
      let span1 := pminus span0 (pre r (pminus assumed span0)) in
      if equiv span0 span1
      then Some (negb (sat span0), match ret with Some _ => Some nlayers | None => None end)
      else
        match ret with
        | None => weak_loop fuel' r assumed ret nlayers span1
        | Some limit =>
            let nlayers := nlayers + 1 in
            if (0 <? limit) && (limit <? nlayers) then Some (false, Some nlayers)
            else weak_loop fuel' r assumed ret nlayers span1
        end
  end.
Definition weak_convergence_ck (fuel : nat) (r : rel) (inv assumed : pred) (ret : option nat)
  : option (bool * option nat) :=
  weak_loop fuel r assumed ret 1 (pminus assumed inv).

(** [transitive_closure(xn)], pfmla.cc:476-487.  [dotjoin] (pfmla.hh:305) is relational
    composition. *)
Definition dotjoin (a b : rel) : rel := fun s t => existsb (fun u => a s u && b u t) univ.
Definition rtab (r : rel) : rel :=
  let l := map (fun s => (s, filter (r s) univ)) univ in
  fun s t => existsb (fun row =>
    (if eq_dec (fst row) s then true else false) &&
    (if in_dec eq_dec t (snd row) then true else false)) l.
Definition requiv (a b : rel) : bool := forallb (fun s => equiv (a s) (b s)) univ.
Fixpoint tc_loop (fuel : nat) (reach next : rel) : option rel :=
  match fuel with
  | 0 => None
  | S fuel' =>
      if requiv reach next then Some reach
      else
        let reach := next in
        tc_loop fuel' reach (rtab (fun s t => reach s t || dotjoin reach reach s t))
  end.
Definition transitive_closure (fuel : nat) (r : rel) : option rel :=
  tc_loop fuel (fun _ _ => false) r.

End Reach.
