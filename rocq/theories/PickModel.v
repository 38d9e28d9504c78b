(** Choosing the next action of the search.

    Models
      - /repo/src/synthesis.cc:276-393   PickActionMRV,
      - /repo/src/synthesis.cc:395-697   pick_action_candidates,
      - /repo/src/opt.cc:662-690         the values of -pick.
    The methods GreedySlowPick, LCVHeavyPick and LCVJankPick, which no option selects, are left out.

    The action chosen depends on the options, on random numbers, on the recorded conflicts, and on the
    partial solutions of all instances at the current level of the search (SearchModel.v). *)
From Coq Require Import List Arith Bool.
From Verif Require Import FinLib ReachModel StabModel RankModel ConflictModel ActModel SearchModel.
Import ListNotations.

(** synthesis.hh:38-57 and 64-72; opt.cc:662-690: -pick and -pick-reach *)
Inductive pick_method := MRVLitePick | LexPick | GreedyPick | LCVLitePick | FullyRandomPick | ConflictPick | QuickPick.
Inductive nice_policy := NilNice | BegNice | EndNice.
Record pick_opt := mkPickOpt { method : pick_method; nicePolicy : nice_policy; pick_back_reach : bool;
  randomize_pick : bool; randomize_depth : nat }.

(** The result: an action; "return false"; a failed Claim, a null pointer or a loop that does not end. *)
Inductive picked := Picked (a : nat) | PickFailed | PickStuck.

Section Pick.
Variable opt : pick_opt.
(** What niceIdxOf (xnsys.hh:232-238) says about the process of an action *)
Variable nice : inst -> nat -> nat.
(** synctx.conflicts *)
Variable f : family.
(** The processes of the first system, for its actions *)
Variable net : list pcsymm.

(** synthesis.cc:428-448 and 670-690: the actions of the first process by niceness, as a set *)
Definition nice_step (I : inst) (st : option nat * list nat) (a : nat) : option nat * list nat :=
  match fst st with
  | None => (Some (nice I a), [a])
  | Some m => if nice I a <? m then (Some (nice I a), [a]) else if nice I a =? m then (Some m, sadd a (snd st)) else st
  end.
Definition nicest (I : inst) (cs : list nat) : list nat := snd (fold_left (nice_step I) cs (None, [])).

(** biasMap: an action may be in the set of several weights.  synthesis.cc:658-668: the set of the last or of the first weight,
    [None] if the map is empty. *)
Definition bias_map := list (nat * nat).
Definition best_weight (to_max : bool) (l : bias_map) : option nat :=
  fold_left (fun m wa => match m with
                         | None => Some (fst wa)
                         | Some w => Some (if to_max then Nat.max w (fst wa) else Nat.min w (fst wa))
                         end) l None.
Definition best (to_max : bool) (l : bias_map) : option (list nat) :=
  match best_weight to_max l with
  | None => None
  | Some w => Some (fold_right sadd [] (map snd (filter (fun wa => fst wa =? w) l)))
  end.

Section Candidates.
Variable I : inst.
Variable p : pst I.
Variable idx : nat.          (* dlset_idx *)
Variable pk : list nat.      (* inst.picks *)
Notation sources' := (sources (St I) (dec I) (univ I)).
Notation overlap' := (overlap (St I) (univ I)).
Definition dl (j : nat) : dlset (St I) := nth j (ranks p) (dl0 _).

(** synthesis.cc:411-426; [None]: no end *)
Definition back_reach (cs : list nat) : option (list nat) :=
  if pick_back_reach opt then
    match pre_reach _ (dec I) (univ I) (fuel_of I) (lo p) (hinv p) with
    | None => None
    | Some reach =>
        let cs1 := filter (fun a => overlap' reach (img _ (dec I) (univ I) (axn I a) (dl_states _ (dl idx)))) cs in
        Some (if is_empty cs1 then dl_cands _ (dl idx) else cs1)
    end
  else Some cs.
(** synthesis.cc:453-469 *)
Definition lex_step (st : (St I -> bool) * bias_map) (a : nat) : (St I -> bool) * bias_map :=
  if overlap' (fst st) (sources' (axn I a)) then (pand _ (dec I) (univ I) (fst st) (sources' (axn I a)), snd st ++ [(0, a)])
  else (fst st, snd st ++ [(1, a)]).
Definition lex_map (cs : list nat) : bias_map := snd (fold_left lex_step cs (dl_states _ (dl idx), [])).
(** synthesis.cc:470-511: the sum of the ranks with the action; [None]: the action is in none of them, and the null pointer
    of line 509 is followed *)
Definition greedy_weight (a : nat) : option nat :=
  fold_left (fun w j => if smem a (dl_cands _ (dl j)) then Some (match w with None => j | Some n => n + j end) else w)
    (seq idx (length (ranks p) - idx)) None.
Fixpoint weigh (w : nat -> option nat) (cs : list nat) : option bias_map :=
  match cs with
  | [] => Some []
  | a :: cs' => match w a, weigh w cs' with Some n, Some l => Some ((n, a) :: l) | _, _ => None end
  end.
(** synthesis.cc:513-527: the number of candidates left in all ranks *)
Definition lcv_weight (a : nat) : option nat :=
  option_map (fun d => fold_right (fun x n => length (dl_cands _ x) + n) 0 (tl d))
    (revise_deadlocks _ (dec I) (univ I) (fun a => sources' (axn I a)) [a] [] (ranks p)).
(** synthesis.cc:604-621 *)
Definition conflict_map (cs : list nat) : bias_map :=
  let membs := superset_membs f (fs_of pk) (fs_of (cands p)) in
  let both := sand cs membs in
  map (fun a => (0, a)) (if is_empty both then cs else both).
(** synthesis.cc:622-646; [reach]: the states that reach hi_invariant with lo_xn *)
Definition quick_weights (reach : St I -> bool) (a : nat) : list nat :=
  if shadow_puppet _ (sysm I) then
    [if overlap' (sources' (axn I a)) (hinv p) then 1 else 0]
  else if overlap' reach (targets _ (dec I) (univ I) (axn I a)) then
    if subset _ (univ I) (sources' (axn I a)) reach then [1] else [1; 0]
  else [2].
Definition quick_map (cs : list nat) : option bias_map :=
  option_map (fun reach => flat_map (fun a => map (fun w => (w, a)) (quick_weights reach a)) cs)
    (pre_reach _ (dec I) (univ I) (fuel_of I) (lo p) (hinv p)).
(** biasMap and biasToMax, synthesis.cc:425-646 *)
Definition bias (cs : list nat) : option (bool * bias_map) :=
  match method opt with
  | MRVLitePick => Some (true, map (fun a => (0, a)) cs)
  | LexPick => Some (false, lex_map cs)
  | GreedyPick => option_map (pair true) (weigh greedy_weight cs)
  | LCVLitePick => option_map (pair false) (weigh lcv_weight cs)
  | ConflictPick => Some (false, conflict_map cs)
  | QuickPick => option_map (pair false) (quick_map cs)
  | FullyRandomPick => Some (true, [])
  end.
(** pick_action_candidates, synthesis.cc:395-697; [None]: stuck *)
Definition pick_action_candidates : option (list nat) :=
  match back_reach (dl_cands _ (dl idx)) with
  | None => None
  | Some cs =>
      let cs := match nicePolicy opt with BegNice => nicest I cs | _ => cs end in
      match bias cs with
      | None => None
      | Some (to_max, l) =>
          match best to_max l with
          | None => Some []
          | Some cs => Some (match nicePolicy opt with EndNice => nicest I cs | _ => cs end)
          end
      end
  end.
End Candidates.

(** synthesis.cc:297-310: the first rank with candidates, over all instances that are not lightweight.  The inner loop, from
    rank [i] on *)
Fixpoint mrv_inner (sizes : list bool) (i mrv : nat) : nat :=
  match sizes with
  | [] => mrv
  | empty :: r => if (0 <? mrv) && (mrv <=? i) then mrv else mrv_inner r (S i) (if empty then mrv else i)
  end.
Definition rank_empty (p : part) : list bool := map (fun d => is_empty (dl_cands _ d)) (ranks (projT2 p)).
Definition mrv_rank (ps : list part) : nat :=
  fold_left (fun mrv p => if p_no_partial p then mrv else mrv_inner (rank_empty p) 0 mrv) ps 0.

Definition part_rank (p : part) (j : nat) : list nat := dl_cands _ (nth j (ranks (projT2 p)) (dl0 _)).
(** synthesis.cc:311-333: the smallest set of preferred candidates over these instances.  [Good []]: there is none; [Bad]:
    "return false" *)
Fixpoint mrv_candidates (mrv : nat) (pk : list nat) (ps : list part) (candidates : list nat) : res (list nat) :=
  match ps with
  | [] => Good candidates
  | p :: r =>
      if p_no_partial p || (length (ranks (projT2 p)) <=? mrv) || is_empty (part_rank p mrv) then mrv_candidates mrv pk r candidates
      else
        match pick_action_candidates (projT1 p) (projT2 p) mrv pk with
        | None => Stuck
        | Some [] => Bad
        | Some tmp =>
            mrv_candidates mrv pk r (if is_empty candidates || (length tmp <? length candidates) then tmp else candidates)
        end
  end.
(** synthesis.cc:335-343: otherwise the candidates of the first instance that has some *)
Fixpoint any_candidates (ps : list part) : list nat :=
  match ps with [] => [] | p :: r => if is_empty (p_cands p) then any_candidates r else p_cands p end.

(** synthesis.cc:349-376: of the actions that differ in random values only, the first is kept. *)
Definition zero_random (a : nat) : nat :=
  let act := act_of net a in
  let k := nth (act_pc act) net pc0 in
  id_of net {| act_pc := act_pc act;
               vals := fold_left (fun v j => if random_read_ck (nth j (accs k) acc0) || random_write_ck (nth j (accs k) acc0) then upd v j 0 else v)
                         (seq 0 (length (accs k))) (vals act) |}.
Fixpoint first_of_each (seen cs : list nat) : list nat :=
  match cs with
  | [] => []
  | a :: r => if smem (zero_random a) seen then first_of_each seen r else a :: first_of_each (sadd (zero_random a) seen) r
  end.

(** PickActionMRV, synthesis.cc:276-393.  [draw]: the random number, reduced to what is asked for (urandom.pick(n) is less than n);
    [probabilistic0]: topology.probabilistic_ck() of the first system *)
Definition PickActionMRV (draw : nat) (probabilistic0 : bool) (nd : node) : picked :=
  match method opt with
  | FullyRandomPick =>
      match any_candidates (parts nd) with
      | [] => PickFailed
      | cs => Picked (nth (draw mod length cs) cs 0)
      end
  | _ =>
      match mrv_candidates (mrv_rank (parts nd)) (picks nd) (parts nd) [] with
      | Stuck => PickStuck
      | Bad => PickFailed
      | Good cs =>
          let cs := if is_empty cs then fold_right sadd [] (any_candidates (parts nd)) else cs in
          if is_empty cs then PickStuck
          else
            let cs := if probabilistic0 then first_of_each [] cs else cs in
            Picked (if randomize_pick opt && (randomize_depth opt <=? level nd) then nth (draw mod length cs) cs 0 else hd 0 cs)
      end
  end.
End Pick.

(** What the search sees of it: the [t]-th pick is made with the [t]-th random number, and the conflicts recorded by then. *)
Definition search_pick (opt : pick_opt) (nice : inst -> nat -> nat) (fams : nat -> family) (net : list pcsymm)
    (probabilistic0 : bool) (draws : nat -> nat) (t : nat) (nd : node) : option nat :=
  match PickActionMRV opt nice (fams t) net (draws t) probabilistic0 nd with Picked a => Some a | _ => None end.
