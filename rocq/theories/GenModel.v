(** Model of the protocol generator of /repo/src/uni/generate.cc (lines 23-545):
    a search over sets of actions of unidirectional ring protocols.

    Bit tables are lists of booleans, as in UniModel.  [None] stands for a failed
    [Claim] or [failout_sysCx], for an access outside a table, or for lack of
    fuel; C75 shows where it cannot happen.  Not modelled: the variant "-bdd"
    (generate.cc:154-210), the texts of the options, flushing, and
    [check_ppg_overapprox] (only the built-in test sets it to false). *)
From Coq Require Import List Arith Bool.
From Verif Require Import FinLib UniModel LivelockModel TileModel CanonModel.
Import ListNotations.

(** [SearchOpt], generate.cc:23-63.  [bfs] is "!!bfs_ofile". *)
Record SearchOpt := {
  domsz : nat;
  max_depth : nat;
  max_period : nat;
  max_propagations : nat;
  nw_disabling : bool;
  trust_given : bool;
  bfs : bool;
  dfs_threshold : nat;
  given_acts : list UniAct
}.

(** [commit_domsz], generate.cc:65-71. *)
Definition commit_domsz (o : SearchOpt) : SearchOpt :=
  {| domsz := domsz o;
     max_depth := if max_depth o =? 0 then domsz o * domsz o else max_depth o;
     max_period := if max_period o =? 0 then 2 * domsz o + 2 else max_period o;
     max_propagations :=
       if max_propagations o =? 0 then domsz o * domsz o else max_propagations o;
     nw_disabling := nw_disabling o; trust_given := trust_given o; bfs := bfs o;
     dfs_threshold := dfs_threshold o; given_acts := given_acts o |}.

(** * Actions of a livelock *)

(** The rows of [map_livelock_ppgs], unifile.cc:310-320, with the ids that
    [fill_livelock_actions_fn], generate.cc:119-123, records.  [None] is the
    failed Claim of line 316. *)
Fixpoint ppgs_rows (t : list nat) (M : nat) (row cols : list nat) : option (list nat) :=
  match cols with
  | [] => Some []
  | w :: cols' =>
      match fill_row t M w (tl row) with
      | None => None
      | Some r =>
          match ppgs_rows t M (w :: r) cols' with
          | None => None
          | Some ids => Some (row_ids M w (tl row) r ++ ids)
          end
      end
  end.

(** [map_livelock_ppgs], unifile.cc:292-321, with its Claims of lines 302-304. *)
Definition livelock_ppgs (t : list nat) (M : nat) (bot col : list nat) : option (list nat) :=
  let b0 := nth 0 bot 0 in
  if (b0 =? nth (length bot - 1) bot 0) && (b0 =? nth (length col - 1) col 0)
     && (b0 =? nth 0 col 0)
  then ppgs_rows t M bot (tl col) else None.

(** [mask.wipe(0)] followed by [set1] for each id. *)
Definition id_mask (n : nat) (ids : list nat) : list bool :=
  fold_left (fun bt i => upd bt i true) ids (repeat false n).

(** [max_livelock_actids], generate.cc:231-235 and 313-317: the last two ids. *)
Definition last_two (mask : list bool) : nat * nat :=
  fold_left (fun p i => (snd p, i)) (ones mask) (0, 0).

(** Body of the loop generate.cc:238-247 and 320-329 for one level. *)
Definition prune_level (m0 m1 : nat) (c : list bool) : list bool :=
  if negb (nth m1 c false) then repeat false (length c)
  else if negb (nth m0 c false) then upd c m1 false
  else c.

(** generate.cc:231-247 and 313-329.  The levels above the current one are the
    list [anc], the nearest first. *)
Definition prune (mask : list bool) (anc : list (list bool)) : option (list (list bool)) :=
  let '(m0, m1) := last_two mask in
  if m0 =? 0 then None else Some (map (prune_level m0 m1) anc).

(** * The check of one set of actions *)

(** The loops generate.cc:273-278 and 283-288: the first node of the action
    that lies on a cycle; the nodes of the cycle in order.  (Running out of
    fuel in the cycle search is excluded by C11.) *)
Definition cycle_from (M : nat) (adj : nat -> list nat) (a b : nat) : option (list nat) :=
  find_some (fun d =>
    match cycle_ck_from (M * M * M) (id_of3 a b d M) adj with
    | Some (x :: stack) => Some (map fst (rev (x :: stack)))
    | _ => None
    end) (seq 0 M).

(** Result of [periodic_leads_semick]: [LNil (Some ids)] is Nil after a livelock
    with the recorded actions [ids], [LNil None] is Nil from line 290, and
    [LEnd maybe_livelock] is line 336. *)
Inductive lead :=
| LNil (livelock : option (list nat))
| LEnd (maybe_livelock : bool)
| LFail.

(** The loop generate.cc:269-334 over the ids of [pending]. *)
Fixpoint leads_loop (o : SearchOpt) (t : list nat) (adj oadj : nat -> list nat)
    (ids : list nat) (pending : list bool) (maybe : bool) : lead :=
  match ids with
  | [] => LEnd maybe
  | i :: ids' =>
      if nth i pending false then
        let M := domsz o in
        let '(a, b, _) := uniact_of_id i M in
        match cycle_from M adj a b with
        | None =>
            match cycle_from M oadj a b with
            | None => LNil None
            | Some _ => leads_loop o t adj oadj ids' pending false
            end
        | Some nodes =>
            let acts := map (fun x => let '(a, b, _) := uniact_of_id x M in (a, b)) nodes in
            if forallb (fun ab => ppg t M (fst ab) (snd ab) <? M) acts then
              let pending' := fold_left (fun bt i => upd bt i false) (acts_ids t M acts) pending in
              if (max_period o <? max_propagations o) && (length acts <=? max_period o) then
                match guided_livelock_ck t M acts (max_propagations o) with
                | Some ids => LNil (Some ids)
                | None => leads_loop o t adj oadj ids' pending' maybe
                end
              else leads_loop o t adj oadj ids' pending' maybe
            else LFail
        end
      else leads_loop o t adj oadj ids' pending maybe
  end.

(** [|=] of cx/bittable.hh (external) on tables of equal size. *)
Fixpoint union (s s' : list bool) : list bool :=
  match s, s' with
  | x :: s, y :: s' => (x || y) :: union s s'
  | _, _ => s
  end.

(** The adjacency list of an arc sequence (see C13), one entry for each node. *)
Definition adjacency (n : nat) (arcs : list (nat * nat)) : nat -> list nat :=
  let table := map (arcs_of arcs) (seq 0 n) in fun x => nth x table [].

(** [periodic_leads_semick], generate.cc:143-337, without "-bdd". *)
Definition periodic_leads_semick (o : SearchOpt) (delegates : list bool) (t : list nat)
    (candidates : list bool) : lead :=
  let M := domsz o in
  let loop maybe :=
    leads_loop o t
      (adjacency (M * M * M) (tile_arcs delegates t M))
      (adjacency (M * M * M) (overapprox_tile_arcs (union delegates candidates) M))
      (seq 0 (M * M * M)) delegates maybe in
  match livelock_semick (max_period o) t M with
  | RNil => loop false
  | RMay => loop true
  | RYes row col =>
      match livelock_ppgs t M row col with
      | Some ids => LNil (Some ids)
      | None => LFail
      end
  end.

(** * The search *)

(** [trim_coexist], generate.cc:340-367. *)
Definition trim_coexist (actset : list bool) (actid M : nat) (nw : bool) : list bool :=
  let '(a, b, c) := uniact_of_id actid M in
  let s := actset in
  let s := if a =? b then subtract_action_mask s (c, c, a) M else s in
  let s := if a =? c then subtract_action_mask s (b, a, b) M else s in
  let s := subtract_action_mask s (a, b, M) M in
  let s := subtract_action_mask s (a, c, M) M in
  let s := subtract_action_mask s (a, M, b) M in
  if negb nw then s
  else
    let s := subtract_action_mask s (c, b, M) M in
    subtract_action_mask s (M, b, a) M.

(** generate.cc:392-413: whether to go on below the node, and whether to print
    it; [None] inside is "return".  The levels above come back pruned. *)
Definition check_node (o : SearchOpt) (delegates : list bool) (t : list nat)
    (candidates : list bool) (anc : list (list bool)) (depth : nat)
  : option (list (list bool) * option bool) :=
  if (depth =? 1) && trust_given o then Some (anc, Some false)
  else
    match periodic_leads_semick o delegates t candidates with
    | LFail => None
    | LNil None => Some (anc, None)
    | LNil (Some ids) =>
        match prune (id_mask (domsz o * domsz o * domsz o) ids) anc with
        | Some anc' => Some (anc', None)
        | None => None
        end
    | LEnd maybe => if canonical_ck t (domsz o) then Some (anc, Some maybe) else Some (anc, None)
    end.

(** generate.cc:415-431: whether "depth == max_depth" ends the branch. *)
Definition at_limit (o : SearchOpt) (actid depth : nat) : bool :=
  let M := domsz o in
  let '(a, b, _) := uniact_of_id actid M in
  (depth =? max_depth o) && negb (M * M - 1 - id_of2 a b M <=? dfs_threshold o).

(** Levels above, tables written to id_ofile, tables written to bfs_ofile. *)
Definition result := option (list (list bool) * list (list nat) * list (list nat)).

(** The loop generate.cc:433-441; the first element of [anc] is [candidates]. *)
Fixpoint next_loop (rec : list (list bool) -> nat -> result) (ids : list nat)
    (anc : list (list bool)) : result :=
  match ids with
  | [] => Some (anc, [], [])
  | i :: ids' =>
      if nth i (hd [] anc) false then
        match rec anc i with
        | None => None
        | Some (anc', p1, f1) =>
            match next_loop rec ids' (upd (hd [] anc') i false :: tl anc') with
            | None => None
            | Some (anc'', p2, f2) => Some (anc'', p1 ++ p2, f1 ++ f2)
            end
        end
      else next_loop rec ids' anc
  end.

(** [recurse], generate.cc:371-442.  [delegates] is delegates_stack[depth-1] and
    [anc] are candidates_stack[depth-1], ..., candidates_stack[0].  Deeper
    levels are overwritten before they are read.  The stacks have
    domsz*domsz+1 levels (lines 451 and 456). *)
Fixpoint recurse (fuel : nat) (o : SearchOpt) (delegates : list bool) (depth : nat)
    (anc : list (list bool)) (actid : nat) : result :=
  match fuel with
  | 0 => None
  | S fuel' =>
      let M := domsz o in
      if negb (depth <=? M * M) then None
      else if negb (nth actid (hd [] anc) false) then None
      else
        let delegates := upd delegates actid true in
        let candidates := trim_coexist (upd (hd [] anc) actid false) actid M (nw_disabling o) in
        let t := ppgfun_of_actset delegates M in
        match check_node o delegates t candidates anc depth with
        | None => None
        | Some (anc, None) => Some (anc, [], [])
        | Some (anc, Some print) =>
            let own := if print then [t] else [] in
            if at_limit o actid depth then Some (anc, own, if bfs o then [t] else [])
            else
              match next_loop (recurse fuel' o delegates (depth + 1))
                      (seq (actid + 1) (length candidates - (actid + 1))) (candidates :: anc) with
              | None => None
              | Some (anc', p, f) => Some (tl anc', own ++ p, f)
              end
        end
  end.

(** The macros REMOVE_ABB, REMOVE_AAB and REMOVE_ABA, generate.cc:459-475. *)
Definition remove_all (M : nat) (id : nat -> nat -> nat) (s : list bool) : list bool :=
  fold_left (fun s a => fold_left (fun s b => upd s (id a b) false) (seq 0 M) s) (seq 0 M) s.
Definition remove_ABB (M : nat) := remove_all M (fun a b => id_of3 a b b M).
Definition remove_AAB (M : nat) := remove_all M (fun a b => id_of3 a a b M).
Definition remove_ABA (M : nat) := remove_all M (fun a b => id_of3 a b a M).

(** Initial candidates, generate.cc:454-485. *)
Definition start_candidates (o : SearchOpt) : list bool :=
  let M := domsz o in
  let s := remove_ABB M (repeat true (M * M * M)) in
  if nw_disabling o then remove_ABA M s else s.

(** RECURSE(id_of3(x, y, z, domsz)), generate.cc:477-478, with the Claims of
    [id_of3]. *)
Definition recurse_at (o : SearchOpt) (c : list bool) (x y z : nat) : result :=
  let M := domsz o in
  if (x <? M) && (y <? M) && (z <? M) then
    recurse (M * M * M) o (repeat false (M * M * M)) 1 [c] (id_of3 x y z M)
  else None.

(** [searchit] without given actions, generate.cc:445-485 and 530-539. *)
Definition search_all (o : SearchOpt) : option (list (list nat) * list (list nat)) :=
  let M := domsz o in
  match recurse_at o (start_candidates o) 0 0 1 with
  | None => None
  | Some (anc, p1, f1) =>
      let c := remove_AAB M (hd [] anc) in
      let second :=
        if nw_disabling o then Some (c, [], [])
        else
          match recurse_at o c 0 1 0 with
          | None => None
          | Some (anc, p, f) => Some (remove_ABA M (hd [] anc), p, f)
          end in
      match second with
      | None => None
      | Some (c, p2, f2) =>
          match recurse_at o c 0 1 2 with
          | None => None
          | Some (_, p3, f3) => Some (p1 ++ p2 ++ p3, f1 ++ f2 ++ f3)
          end
      end
  end.

(** The loop over the given actions, generate.cc:488-501: delegates, candidates
    and the highest id.  [None] is "Action was trimmed already". *)
Fixpoint take_given (M : nat) (nw : bool) (acts : list UniAct) (delegates candidates : list bool)
    (hi : nat) : option (list bool * list bool * nat) :=
  match acts with
  | [] => Some (delegates, candidates, hi)
  | (a, b, c) :: acts' =>
      if (a <? M) && (b <? M) && (c <? M) then
        let i := id_of3 a b c M in
        let hi := if hi <? i then i else hi in
        if nth i candidates false then
          take_given M nw acts' (upd delegates i true)
            (trim_coexist (upd candidates i false) i M nw) hi
        else None
      else None
  end.

(** generate.cc:509-512: "Clear out low candidates". *)
Definition clear_below (hi : nat) (s : list bool) : list bool :=
  fold_left (fun s i => upd s i false) (seq 0 hi) s.

(** [delegates.ck(id_of3(x, y, z, domsz))] with the Claims of [id_of3]. *)
Definition has (M : nat) (s : list bool) (x y z : nat) : option bool :=
  if (x <? M) && (y <? M) && (z <? M) then Some (nth (id_of3 x y z M) s false) else None.

(** [searchit] with given actions, generate.cc:487-528. *)
Definition search_given (o : SearchOpt) : option (list (list nat) * list (list nat)) :=
  let M := domsz o in
  match take_given M (nw_disabling o) (given_acts o) (repeat false (M * M * M))
          (start_candidates o) 0 with
  | None => None
  | Some (delegates, candidates, hi) =>
      if negb (trust_given o) && negb (canonical_ck (ppgfun_of_actset delegates M) M) then None
      else
        let candidates := clear_below hi candidates in
        let go candidates :=
          match recurse (M * M * M) o (upd delegates hi false) 1 [upd candidates hi true] hi with
          | None => None
          | Some (_, p, f) => Some (p, f)
          end in
        match has M delegates 0 0 1 with
        | None => None
        | Some true => go candidates
        | Some false =>
            match has M delegates 0 1 0 with
            | None => None
            | Some true => go (remove_AAB M candidates)
            | Some false =>
                match has M delegates 0 1 2 with
                | Some true => go (remove_ABA M (remove_AAB M candidates))
                | _ => None
                end
            end
        end
  end.

(** [searchit], generate.cc:445-545. *)
Definition searchit (o : SearchOpt) : option (list (list nat) * list (list nat)) :=
  match given_acts o with
  | [] => search_all o
  | _ => search_given o
  end.
