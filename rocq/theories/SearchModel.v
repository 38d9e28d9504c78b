(** Model of the synthesis search: /repo/src/search.cc:21-309 (verify_solutions,
    AddStabilization, try_order_synthesis) and the parts of
    /repo/src/synthesis.cc that it drives (add_small_conflict_set 836-888,
    check_forward 946-1020, revise_actions_alone 1024-1358, revise_actions
    1360-1500, pick_action 1502-1514, SynthesisCtx::add 1632-1698) and of
    find_one_cycle / find_livelock_actions (/repo/src/xnsys.cc:737-821).

    State sets and relations are those of ReachModel.v, the stabilization and
    shadow checks those of StabModel.v, the ranking of deadlocks that of
    RankModel.v, the conflict family that of ConflictModel.v.

    Not modelled: log output and livelock files; the options prep_conflicts,
    fast_deadlock_mrv, uniring, the unused csp formula (all off by default);
    interruption ([done_ck] is never true); the number of convergence layers as
    an optimisation goal (optimal_nlayers_sum stays 0) and the sum of layers
    returned for it; the replacement of picks by [useless_picks]
    (synthesis.cc:1425-1481), which only happens for shadow/puppet synthesis
    without "active" shadow behaviour. *)
From Coq Require Import List Arith Bool.
From Verif Require Import FinLib ReachModel StabModel RankModel ConflictModel.
Import ListNotations.

(** What a call of a function with a [bool] result can do.  [Stuck] is a failed
    Claim or a loop that does not end (the fuel ran out). *)
Inductive res (A : Type) := Good (a : A) | Bad | Stuck.
Arguments Good {A} a.
Arguments Bad {A}.
Arguments Stuck {A}.

(** * Blaming actions for a livelock, xnsys.cc:737-821 *)
Section Blame.
Variable St : Type.
Variable eq_dec : forall x y : St, {x = y} + {x <> y}.
Variable univ : list St.
Notation pred := (St -> bool).
Notation rel := (St -> St -> bool).

(** [pick_pre] (pfmla.cc) returns a formula with one state; which one is up to
    the decision-diagram package. *)
Variable choose : pred -> St.
(** The transitions of an action ([topo.action_pfmla]). *)
Variable axn : nat -> rel.

Definition one (s : St) : pred := fun t => if eq_dec s t then true else false.
Definition mem_st (l : list St) : pred := fun t => if in_dec eq_dec t l then true else false.

(** The loop xnsys.cc:744-753; [visit] lists the states so far, last first. *)
Fixpoint walk (fuel : nat) (xn : rel) (scc : pred) (visit : list St) : res (list St) :=
  match fuel with
  | 0 => Stuck
  | S fuel' =>
      match visit with
      | [] => Stuck
      | top :: _ =>
          let next := pand St eq_dec univ scc (img St eq_dec univ xn (one top)) in
          if negb (sat St univ next) then Stuck
          else if overlap St univ next (mem_st visit)
               then Good (choose (pand St eq_dec univ next (mem_st visit)) :: visit)
               else walk fuel' xn scc (choose next :: visit)
      end
  end.

(** xnsys.cc:755-767: keep the states from the first equal to the last one. *)
Fixpoint from_first (z : St) (l : list St) : list St :=
  match l with
  | [] => []
  | x :: l' => if eq_dec x z then l else from_first z l'
  end.

(** [find_one_cycle], xnsys.cc:737-768. *)
Definition find_one_cycle (fuel : nat) (xn : rel) (scc initial : pred) : res (list St) :=
  match walk fuel xn scc [choose initial] with
  | Good (z :: visit) => Good (from_first z (rev (z :: visit)))
  | Good [] => Stuck
  | Bad => Bad
  | Stuck => Stuck
  end.

(** The pairs (states[i], states[i+1]), i < sz - 1. *)
Fixpoint links (l : list St) : list (St * St) :=
  match l with
  | x :: (y :: _) as r => (x, y) :: links r
  | _ => []
  end.

(** [find_livelock_actions], xnsys.cc:776-821. *)
Definition find_livelock_actions (fuel : nat) (actions : list nat) (xn : rel) (scc invariant : pred)
  : res (list nat) :=
  match find_one_cycle fuel xn scc (pminus St eq_dec univ scc invariant) with
  | Good states =>
      if existsb (fun l => negb (invariant (fst l))) (links states)
      then Good (fold_right sadd []
             (filter (fun a => existsb (fun l => axn a (fst l) (snd l)) (links states)) actions))
      else Good (filter (fun a => overlap St univ (img St eq_dec univ (axn a) scc) scc) actions)
  | Bad => Bad
  | Stuck => Stuck
  end.
End Blame.

(** * Systems and partial solutions *)

(** One instance of the parameterised system, with what the search reads of it. *)
Record inst := mkInst {
  St : Type;
  dec : forall x y : St, {x = y} + {x <> y};
  univ : list St;                          (* all states *)
  sysm : sys St;                           (* Xn::Sys *)
  sopt : options;                          (* StabilizationOpt *)
  axn : nat -> St -> St -> bool;           (* topo.action_pfmla *)
  pcxn : list nat -> list (St -> St -> bool);   (* the actions of a set, by process (X::Fmlae) *)
  joint : list nat -> St -> St -> bool;    (* topo.sync_xn *)
  choose_st : (St -> bool) -> St;          (* pick_pre *)
  drags_shadow : nat -> bool;              (* assigns a pure shadow variable, the process having
                                              a shadow action: synthesis.cc:980-992 *)
  candidates0 : list nat;                  (* candidate_actions, xnsys.cc:1056 *)
  light_conflict : bool;                   (* no_conflict, search.cc:613 *)
  light : bool                             (* no_partial, search.cc:614 *)
}.

(** The fields of [PartialSynthesis] (synthesis.hh:122-165) of one instance. *)
Record pst (I : inst) := mkPst {
  actions : list nat;
  cands : list nat;
  dead : St I -> bool;                     (* deadlockPF *)
  lo : St I -> St I -> bool;               (* lo_xn *)
  hi : St I -> St I -> bool;               (* hi_xn *)
  hinv : St I -> bool;                     (* hi_invariant *)
  ranks : list (dlset (St I));             (* mcv_deadlocks *)
  no_partial : bool;
  no_conflict : bool
}.
Arguments mkPst {I}.
Arguments actions {I} p. Arguments cands {I} p. Arguments dead {I} p. Arguments lo {I} p.
Arguments hi {I} p. Arguments hinv {I} p. Arguments ranks {I} p.
Arguments no_partial {I} p. Arguments no_conflict {I} p.

Definition part := { I : inst & pst I }.
Definition p_actions (p : part) : list nat := actions (projT2 p).
Definition p_cands (p : part) : list nat := cands (projT2 p).
Definition p_no_partial (p : part) : bool := no_partial (projT2 p).
Definition p_no_conflict (p : part) : bool := no_conflict (projT2 p).
(** [deadlockPF.sat_ck()]. *)
Definition p_dead (p : part) : bool := sat (St (projT1 p)) (univ (projT1 p)) (dead (projT2 p)).

(** A decision level: the instances, the picks and the level. *)
Record node := mkNode { parts : list part; picks : list nat; level : nat }.

(** [Remove1] (synthesis.cc:105-120): drop the first occurrence. *)
Fixpoint remove1 (x : nat) (l : list nat) : list nat :=
  match l with
  | [] => []
  | y :: r => if y =? x then r else y :: remove1 x r
  end.

(** The union of the transitions of some actions. *)
Definition xn_of (I : inst) (acts : list nat) : St I -> St I -> bool :=
  rtab (St I) (dec I) (univ I) (fun s t => existsb (fun a => axn I a s t) acts).

Definition fuel_of (I : inst) : nat := S (S (length (univ I))).

(** [synctx.add], synthesis.cc:1632-1698, for one system; a lightweight system
    (no_partial) gets neither hi_xn nor a ranking. *)
Definition init (I : inst) : pst I :=
  let s := sysm I in
  let d := pand _ (dec I) (univ I) (pnot _ (dec I) (univ I) (invariant _ s)) (closed_assume _ s) in
  let d := if shadow_puppet _ s
           then por _ (dec I) (univ I) d (sources _ (dec I) (univ I) (shadow_xn _ s)) else d in
  mkPst [] (candidates0 I) d (rfalse _)
    (if light I then rfalse _ else xn_of I (candidates0 I))
    (pand _ (dec I) (univ I) (invariant _ s) (closed_assume _ s))
    (if light I then [] else
       rank_deadlocks _ (dec I) (univ I) (fun a => sources _ (dec I) (univ I) (axn I a)) (candidates0 I) d)
    (light I) (light_conflict I).

Section Search.
(** Where a new conflict lands in the tree of conflicts (see ConflictModel.v). *)
Variable place : fset -> list fset -> nat.
(** [clash a c]: [c] does not coexist with some action represented by [a], the
    test of QuickTrim (synthesis.cc:715-734; see ActModel.v). *)
Variable clash : nat -> nat -> bool.
(** opt.max_depth, opt.max_height, opt.max_conflict_sz (0: no limit). *)
Variables max_depth max_height max_conflict_sz : nat.
(** Bound on the rounds of [revise_actions]. *)
Variable rounds : nat.

(** * revise_actions_alone *)
Section Alone.
Variable I : inst.
Notation sy := (sysm I).
Notation subset' := (subset (St I) (univ I)).
Notation sources' := (sources (St I) (dec I) (univ I)).
Notation pand' := (pand (St I) (dec I) (univ I)).
Notation por' := (por (St I) (dec I) (univ I)).
Notation pminus' := (pminus (St I) (dec I) (univ I)).
Notation pnot' := (pnot (St I) (dec I) (univ I)).
Notation sat' := (sat (St I) (univ I)).
Notation ror' := (ror (St I) (dec I) (univ I)).
Notation rminus' := (rminus (St I) (dec I) (univ I)).

(** synthesis.cc:1084-1085 and 1294-1297: the states that need an action. *)
Definition unresolved_states (inv : St I -> bool) (l : St I -> St I -> bool) : St I -> bool :=
  pminus' (pand' (por' (pnot' inv) (sources' (shadow_xn _ sy))) (closed_assume _ sy)) (sources' l).

(** [no_partial] instances, synthesis.cc:1061-1089. *)
Definition alone_light (p : pst I) (adds dels : list nat) : res (pst I * list nat * list nat * list nat) :=
  let acts := fold_left (fun l a => remove1 a l ++ [a]) adds (actions p) in
  let cs := fold_left (fun l a => remove1 a l) dels
              (fold_left (fun l a => remove1 a l) adds (cands p)) in
  let l := ror' (lo p) (xn_of I adds) in
  let d := unresolved_states (invariant _ sy) l in
  let p' := mkPst acts cs d l (hi p) (hinv p) (ranks p) (no_partial p) (no_conflict p) in
  if negb (is_empty cs) || negb (sat' d) then Good (p', [], [], []) else Bad.

(** The loop over [adds], synthesis.cc:1091-1143: candidates, actions, dels and
    candidates_contain_all_adds. *)
Definition add_one (adds : list nat) (st : list nat * list nat * list nat * bool) (a : nat)
  : list nat * list nat * list nat * bool :=
  let '(cs, acts, dels, all_in) := st in
  let all_in := all_in && smem a cs in
  let cs := remove1 a cs in
  let acts := remove1 a acts ++ [a] in
  let trimmed := sminus (filter (fun c => negb (c =? a) && clash a c) cs) adds in
  (cs, acts, sor dels trimmed, all_in).
Definition add_all (p : pst I) (adds dels : list nat) : list nat * list nat * list nat * bool :=
  fold_left (add_one adds) adds (cands p, actions p, dels, true).

(** [check_forward], synthesis.cc:946-1020, called with empty adds, dels and
    rejs. *)
Definition check_forward (f : family) (p : pst I) : res (pst I * list nat * list nat * list nat) :=
  if length (ranks p) <=? 1 then
    if sat' (dead p) then Stuck
    else if conflict_ck f (fs_of (actions p)) then Bad
    else Good (mkPst (actions p) [] (dead p) (lo p) (hi p) (hinv p) (ranks p) (no_partial p) (no_conflict p),
               [], [], [])
  else
    let adds := dl_cands _ (nth 1 (ranks p) (dl0 _)) in
    let lo_pre := sources' (lo p) in
    let useless a :=
      subset' (sources' (axn I a)) lo_pre ||
      (drags_shadow I a && negb (behav_eqb (behav _ sy) FutureActiveShadow)
       && negb (style_eqb (style _ sy) FutureAndActiveShadow)
       && negb (overlap _ (univ I) (sources' (axn I a)) (hinv p))) in
    let dels := fold_right sadd [] (filter useless (cands p)) in
    match conflict_membs f (fs_of (actions p ++ adds)) (fs_of (cands p)) [] with
    | (false, _) => Bad
    | (true, membs) => Good (p, adds, sor dels membs, fold_right sadd [] membs)
    end.

(** The set of cyclic states, synthesis.cc:1211-1228; [None]: too many layers. *)
Definition lo_cycles (acts : list nat) (l : St I -> St I -> bool) (hinv0 : St I -> bool)
  : res (St I -> bool) :=
  if probabilistic _ sy then
    match closure_within _ (dec I) (univ I) (fuel_of I) l (invariant _ sy) with
    | None => Stuck
    | Some t =>
        match prob_livelock_scc _ (dec I) (univ I) (fuel_of I) (pcxn I acts) (closed_assume _ sy)
                (fun a b => negb (t a) && t b) l with
        | None => Stuck
        | Some (_, scc) => Good scc
        end
    end
  else
    match cycle_ck _ (dec I) (univ I) (fuel_of I) l (Some (max_nlayers (sopt I))) (Some hinv0)
            (Some (closed_assume _ sy)) with
    | None => Stuck
    | Some c =>
        if (0 <? max_nlayers (sopt I)) &&
           (max_nlayers (sopt I) <? match cyc_layers _ c with Some n => n | None => 0 end)
        then Bad
        else Good (match cyc_scc _ c with Some scc => scc | None => fun _ => false end)
    end.

(** synthesis.cc:1276-1358, after the check for cycles. *)
Definition alone_tail (f : family) (p : pst I) (acts cs : list nat) (l h : St I -> St I -> bool)
    (scc : St I -> bool) : res (pst I * list nat * list nat * list nat) :=
  match shadow_ck _ (dec I) (univ I) (fuel_of I) sy (pcxn I acts) l h scc with
  | None => Stuck
  | Some (ShadowAbort _) => Stuck
  | Some (ShadowFail _) => Bad
  | Some (ShadowOk _ hinv1) =>
      if negb (subset' hinv1 (hinv p)) then Stuck
      else
        let d := unresolved_states hinv1 l in
        if negb (subset' d (sources' h)) then Bad
        else
          match weak_convergence_ck _ (dec I) (univ I) (fuel_of I) h hinv1 (closed_assume _ sy)
                  (Some (max_nlayers (sopt I))) with
          | None => Stuck
          | Some (false, _) => Bad
          | Some (true, _) =>
              let rk := rank_deadlocks _ (dec I) (univ I) (fun a => sources' (axn I a)) cs d in
              check_forward f (mkPst acts cs d l h hinv1 rk (no_partial p) (no_conflict p))
          end
  end.

(** synthesis.cc:1091-1275 and the rest, for instances that are not lightweight. *)
Definition alone_full (f : family) (p : pst I) (adds dels : list nat)
  : family * res (pst I * list nat * list nat * list nat) :=
  let '(cs, acts, dels, all_in) := add_all p adds dels in
  if negb (is_empty (sand adds dels)) then (f, Bad)
  else
    let l := if synchronous (sopt I) then joint I acts else ror' (lo p) (xn_of I adds) in
    if synchronous (sopt I) &&
       negb (subset' (img _ (dec I) (univ I) l (closed_assume _ sy)) (closed_assume _ sy))
    then (f, Bad)
    else
      let h := if all_in then hi p else ror' (hi p) (xn_of I adds) in
      let cs := fold_left (fun c a => remove1 a c) dels cs in
      let gone := rminus' (rminus' (xn_of I dels) l) (xn_of I cs) in
      let h := rminus' h gone in
      match lo_cycles acts l (hinv p) with
      | Stuck => (f, Stuck)
      | Bad => (f, Bad)
      | Good scc =>
          if negb (subset' scc (invariant _ sy)) then
            if negb (probabilistic _ sy) && negb (synchronous (sopt I)) then
              match find_livelock_actions _ (dec I) (univ I) (choose_st I) (axn I) (fuel_of I) acts l scc
                      (invariant _ sy) with
              | Good blamed => (add_conflict place f (fs_of blamed), Bad)
              | _ => (f, Stuck)
              end
            else (f, Bad)
          else (f, alone_tail f p acts cs l h scc)
      end.

(** [revise_actions_alone], synthesis.cc:1024-1358. *)
Definition alone (f : family) (p : pst I) (adds dels : list nat)
  : family * res (pst I * list nat * list nat * list nat) :=
  if no_partial p then (f, alone_light p adds dels) else alone_full f p adds dels.
End Alone.

Definition alone_part (f : family) (p : part) (adds dels : list nat)
  : family * res (part * list nat * list nat * list nat) :=
  match alone (projT1 p) f (projT2 p) adds dels with
  | (f', Good (p', a, d, r)) => (f', Good (existT _ (projT1 p) p', a, d, r))
  | (f', Bad) => (f', Bad)
  | (f', Stuck) => (f', Stuck)
  end.

(** * revise_actions *)

Record round := mkRound {
  r_parts : list part;
  r_adds : list (list nat);       (* all_adds *)
  r_dels : list (list nat);       (* all_dels *)
  r_keep : bool;                  (* keep_going *)
  r_force : bool;                 (* force_revise *)
  r_common : list nat             (* common_dels *)
}.

(** The for loop of synthesis.cc:1376-1422; [n] instances are left, the next is
    [i]. *)
Fixpoint sweep (n i : nat) (f : family) (r : round) : family * res round :=
  match n with
  | 0 => (f, Good r)
  | S n' =>
      if r_keep r && is_empty (r_common r) then (f, Good r)
      else
        let adds := nth i (r_adds r) [] in
        let dels := nth i (r_dels r) [] in
        if negb (r_force r) && is_empty adds && is_empty dels then sweep n' (S i) f r
        else
          match nth_error (r_parts r) i with
          | None => (f, Stuck)
          | Some p =>
              match alone_part f p adds dels with
              | (f', Bad) => (f', Bad)
              | (f', Stuck) => (f', Stuck)
              | (f', Good (p', a, d, rejs)) =>
                  let common := if i =? 0 then d else sand (r_common r) d in
                  let ps := upd (r_parts r) i p' in
                  let adds := upd (r_adds r) i a in
                  let dels := upd (r_dels r) i [] in
                  if negb (is_empty a) || negb (is_empty rejs)
                  then sweep n' (S i) f'
                         (mkRound ps (map (fun x => sor x a) adds) (map (fun x => sor x rejs) dels)
                                  true false common)
                  else sweep n' (S i) f' (mkRound ps adds dels (r_keep r) (r_force r) common)
              end
          end
  end.

(** The while loop of synthesis.cc:1370-1430. *)
Fixpoint rounds_loop (fuel : nat) (f : family) (ps : list part) (adds dels : list (list nat)) (force : bool)
  : family * res (list part) :=
  match fuel with
  | 0 => (f, Stuck)
  | S fuel' =>
      match sweep (length ps) 0 f (mkRound ps adds dels false force []) with
      | (f', Bad) => (f', Bad)
      | (f', Stuck) => (f', Stuck)
      | (f', Good r) =>
          if r_keep r
          then rounds_loop fuel' f' (r_parts r) (r_adds r)
                 (map (fun x => sor x (r_common r)) (r_dels r)) (r_force r)
          else (f', Good (r_parts r))
      end
  end.

(** Claim2 of synthesis.cc:1487-1489. *)
Fixpoint same_sizes (ps : list part) : bool :=
  match ps with
  | p :: (q :: _) as r => (length (p_actions p) =? length (p_actions q)) && same_sizes r
  | _ => true
  end.

(** [revise_actions], synthesis.cc:1360-1500. *)
Definition revise (f : family) (ps : list part) (adds dels : list nat) : family * res (list part) :=
  match rounds_loop rounds f ps (map (fun _ => adds) ps) (map (fun _ => dels) ps)
          (is_empty adds && is_empty dels) with
  | (f', Good ps') => if same_sizes ps' then (f', Good ps') else (f', Stuck)
  | x => x
  end.

(** * add_small_conflict_set, synthesis.cc:836-888 *)

(** synthesis.cc:868-874: the copy of the base level used for a trial. *)
Definition trial_part (p : part) : part :=
  let q := projT2 p in
  existT _ (projT1 p)
    (mkPst (actions q) (cands q) (dead q) (lo q) (hi q) (hinv q) (ranks q)
       (no_partial q || no_conflict q) (no_conflict q)).

(** The loop synthesis.cc:866-885: [todo] are the picks still to be tried,
    [cur] is delpick_set. *)
Fixpoint shrink (base : list part) (f : family) (todo cur : list nat) : res family :=
  match todo with
  | [] => Good f
  | x :: todo' =>
      let less := sminus cur [x] in
      match revise f (map trial_part base) less [x] with
      | (_, Stuck) => Stuck
      | (f', Good _) => shrink base f' todo' (sadd x less)
      | (f', Bad) => shrink base (add_conflict place f' (fs_of less)) todo' less
      end
  end.

Definition add_small (base : list part) (f : family) (ps : list part) (delpicks : list nat) : res family :=
  if forallb p_no_conflict ps then Good f
  else if (0 <? max_conflict_sz) && (max_conflict_sz <? length delpicks) then Good f
  else if conflict_ck f (fs_of delpicks) && negb (exact_conflict_ck f (fs_of delpicks)) then Good f
  else shrink base (add_conflict place f (fs_of delpicks)) delpicks (fold_right sadd [] delpicks).

(** * verify_solutions, search.cc:21-63 *)

Definition verify_one (p : part) : option (verdict (St (projT1 p))) :=
  let I := projT1 p in
  let acts := p_actions p in
  let l := if synchronous (sopt I) then joint I acts else xn_of I acts in
  stabilization_ck _ (dec I) (univ I) (fuel_of I) (sysm I) (sopt I) (pcxn I acts) l l.

(** [Good true]: accepted; [Good false]: rejected with info.livelock_exists
    (stabilization.cc:364); [Bad]: rejected for another reason. *)
Definition verify_part (p : part) : res bool :=
  match verify_one p with
  | None => Stuck
  | Some (Accepted _ _ _ _) => Good true
  | Some (Livelock _) => Good false
  | Some (Aborted _) => Stuck
  | Some _ => Bad
  end.

Fixpoint verify_list (ps : list part) : res bool :=
  match ps with
  | [] => Good true
  | p :: r => match verify_part p with Good true => verify_list r | x => x end
  end.
(** First the lightweight instances, then (opt.verify_found is true) the others. *)
Definition verify_solutions (ps : list part) : res bool :=
  verify_list (filter p_no_partial ps ++ filter (fun p => negb (p_no_partial p)) ps).

(** * AddStabilization, search.cc:72-207 *)

Inductive outcome :=
| Found (acts : list nat)
| NotFound
| Halted.            (* a failed Claim or no end *)

Variable base : list part.
(** PickActionMRV (synthesis.cc:276-375) with its options and random choices:
    the choice may depend on the step of the search. *)
Variable pick : nat -> node -> option nat.

Definition no_node : node := mkNode [] [] 0.

(** search.cc:179-200: delete [a] at the level of slot [idx]; on failure go on
    with the level below. *)
Fixpoint delete_loop (fuel : nat) (f : family) (stack : list node) (idx a : nat)
  : family * res (list node * nat) :=
  match fuel with
  | 0 => (f, Stuck)
  | S fuel' =>
      let nd := nth idx stack no_node in
      match revise f (parts nd) [] [a] with
      | (f', Stuck) => (f', Stuck)
      | (f', Good ps) => (f', Good (upd stack idx (mkNode ps (picks nd) (level nd)), idx))
      | (f', Bad) =>
          match add_small base f' (parts nd) (picks nd) with
          | Good f'' =>
              let idx' := if idx =? 0 then length stack - 1 else idx - 1 in
              if level nd <=? level (nth idx' stack no_node) then (f'', Bad)
              else delete_loop fuel' f'' stack idx' (last (picks nd) 0)
          | _ => (f', Stuck)
          end
      end
  end.

(** The main loop, search.cc:92-201.  [t] counts the picks. *)
Fixpoint search (fuel t : nat) (f : family) (stack : list node) (idx : nat) : family * outcome :=
  match fuel with
  | 0 => (f, Halted)
  | S fuel' =>
      let nd := nth idx stack no_node in
      let backtrack :=
        match add_small base f (parts nd) (picks nd) with
        | Good f' =>
            let idx' := if idx =? 0 then length stack - 1 else idx - 1 in
            if level nd <=? level (nth idx' stack no_node) then (f', NotFound)
            else search fuel' t f' stack idx'
        | _ => (f, Halted)
        end in
      let go_on :=
        match pick t nd with
        | None =>
            match add_small base f (parts nd) (picks nd) with
            | Good f' => (f', NotFound)
            | _ => (f, Halted)
            end
        | Some a =>
            let next := if (max_height =? 0) || (length stack <=? max_height)
                        then S idx else if S idx =? length stack then 0 else S idx in
            let nd1 := mkNode (parts nd) (picks nd ++ [a]) (S (level nd)) in
            let stack1 := if next =? length stack then stack ++ [nd1] else upd stack next nd1 in
            match revise f (parts nd) [a] [] with
            | (f', Stuck) => (f', Halted)
            | (f', Good ps) =>
                search fuel' (S t) f' (upd stack1 next (mkNode ps (picks nd1) (level nd1))) next
            | (f', Bad) =>
                match add_small base f' (parts nd) (picks nd1) with
                | Good f1 =>
                    match delete_loop (S (length stack1)) f1 stack1 idx a with
                    | (f2, Good (stack2, idx2)) => search fuel' (S t) f2 stack2 idx2
                    | (f2, Bad) => (f2, NotFound)
                    | (f2, Stuck) => (f2, Halted)
                    end
                | _ => (f', Halted)
                end
            end
        end in
      if (0 <? max_depth) && (max_depth <=? level nd) then (f, NotFound)
      else if existsb p_dead (parts nd) then go_on
      else
        match verify_solutions (parts nd) with
        | Stuck => (f, Halted)
        | Good true => (f, Found (match parts nd with p :: _ => p_actions p | [] => [] end))
        | Good false => backtrack
        | Bad =>
            if forallb (fun p => is_empty (p_cands p)) (parts nd) then (f, NotFound) else go_on
        end
  end.

(** search.cc:74-90. *)
Definition add_stabilization (fuel : nat) (f : family) : family * outcome :=
  if conflict_ck f (fs_of (match base with p :: _ => p_actions p | [] => [] end))
  then (add_conflict place f [], NotFound)
  else search fuel 0 f [mkNode base [] 0] 0.

(** * try_order_synthesis, search.cc:258-309 *)

(** The action tried, search.cc:272-276: the first candidate of the last
    instance that is not lightweight.  Reading [candidates[0]] of an empty
    vector is undefined behaviour, and so is the uninitialised [actidx]
    when all instances are lightweight: both are [None]. *)
Fixpoint order_pick (ps : list part) (acc : option nat) : option nat :=
  match ps with
  | [] => acc
  | p :: r =>
      if p_no_partial p then order_pick r acc
      else match p_cands p with [] => None | c :: _ => order_pick r (Some c) end
  end.

Fixpoint try_order (fuel : nat) (f : family) (ps : list part) (pk : list nat) : family * outcome :=
  match fuel with
  | 0 => (f, Halted)
  | S fuel' =>
      if forallb (fun p => is_empty (p_cands p)) ps then
        if match ps with p :: _ => p_dead p | [] => false end then (f, Halted)
        else match verify_solutions ps with
             | Stuck => (f, Halted)
             | Good true => (f, Found (match ps with p :: _ => p_actions p | [] => [] end))
             | Good false =>
                 (* info.livelock_actions is empty: find_livelock_actions is off *)
                 match add_small base (add_conflict place f []) ps pk with
                 | Good f' => (f', NotFound)
                 | _ => (f, Halted)
                 end
             | Bad => match add_small base f ps pk with
                      | Good f' => (f', NotFound)
                      | _ => (f, Halted)
                      end
             end
      else
        match order_pick ps None with
        | None => (f, Halted)
        | Some a =>
            match revise f ps [a] [] with
            | (f', Stuck) => (f', Halted)
            | (f', Good ps') => try_order fuel' f' ps' (pk ++ [a])
            | (f', Bad) =>
                match add_small base f' ps (pk ++ [a]) with
                | Good f1 =>
                    match revise f1 ps [] [a] with
                    | (f2, Stuck) => (f2, Halted)
                    | (f2, Good ps') => try_order fuel' f2 ps' pk
                    | (f2, Bad) => (f2, NotFound)
                    end
                | _ => (f', Halted)
                end
            end
        end
  end.
End Search.

(** Initialising the search, search.cc:209-240 and 517-645: every system is
    added, then the given actions are added and the impossible ones deleted. *)
Definition fresh (insts : list inst) : list part := map (fun I => existT pst I (init I)) insts.
Definition start place clash rounds (f : family) (insts : list inst) (given : list nat)
  : family * res (list part) :=
  revise place clash rounds f (fresh insts) (fold_right sadd [] given)
    (fold_right sadd [] (impossible f)).
