(** Model of the driver of the search, /repo/src/search.cc:449-515 and 698-1048
    ([initialize_conflicts], [stabilization_search]): several OpenMP threads run
    trials of the synthesis search (SearchModel.v) and share a conflict family,
    the flag that ends the search and the result.

    A thread is a state machine.  Its steps are those between which another
    thread or a signal can be noticed: reading the flag at the head of the loop,
    one run of the search, entering the critical section, leaving it, and the
    revision after it.  Everything the steps touch besides the shared variables is
    private to the thread (each thread reads the protocol file itself).  The
    critical section is guarded by a lock, its two reads of the flag are in
    different steps.

    Simplified: the search method is the default one (no -x-try guesses, no
    rank/shuffle search), the number of layers is not optimised, no known solution
    is given (-x-test-known); log output and snapshots of the conflicts are left
    out.  A run of the search that is interrupted stops at the head of its main
    loop (search.cc:98): the other places that look at the flag
    (synthesis.cc:838,878,1034, search.cc:171,189) return before anything is
    recorded. *)
From Coq Require Import List Arith Bool.
From Verif Require Import FinLib RankModel ConflictModel SearchModel.
Import ListNotations.

(** Options: opt.hh; [conflicts_file] is !!exec_opt.conflicts_ofilepath. *)
Record par_opts := mkParOpts {
  ntrials : nat;
  try_all : bool;
  solution_as_conflict : bool;
  conflicts_file : bool
}.

(** Where a thread is. *)
Inductive phase :=
| Head                            (* search.cc:882 *)
| Trying                          (* 884-909 *)
| Tried (o : option (list nat))   (* 911: waits for the critical section *)
| Inside                          (* 960: in it *)
| Merged                          (* 1001: has left it *)
| Gone                            (* 1023: has left the loop *)
| Failed.                         (* a failed Claim or a search that does not end *)

Record thread := mkThread {
  t_fam : family;        (* synctx.conflicts *)
  t_base : list part;    (* synctx.base_partial *)
  t_trial : nat;         (* trial_idx *)
  t_phase : phase
}.

(** A solution that was counted: the thread, its trial and the actions.  With
    try_all they are written to the file ofilepath.PcIdx.trial_idx
    (search.cc:941-947). *)
Record report := mkReport { r_pc : nat; r_trial : nat; r_acts : list nat }.

Record shared := mkShared {
  g_conf : family;            (* conflicts *)
  g_done : bool;              (* done_flag *)
  g_found : bool;             (* solution_found *)
  g_ret : list nat;           (* ret_actions *)
  g_reported : list report;   (* what was counted, first to last *)
  g_lock : option nat;        (* who is in the critical section *)
  g_threads : list thread
}.

Section Par.
Variable place : fset -> list fset -> nat.
Variable clash : nat -> nat -> bool.
Variables max_depth max_height max_conflict_sz rounds : nat.
Variable o : par_opts.

Definition set_phase (t : thread) (p : phase) : thread := mkThread (t_fam t) (t_base t) (t_trial t) p.
Definition set_done (g : shared) : shared :=
  mkShared (g_conf g) true (g_found g) (g_ret g) (g_reported g) (g_lock g) (g_threads g).
Definition put (g : shared) (i : nat) (t : thread) : shared :=
  mkShared (g_conf g) (g_done g) (g_found g) (g_ret g) (g_reported g) (g_lock g) (upd (g_threads g) i t).
Definition set_lock (g : shared) (l : option nat) : shared :=
  mkShared (g_conf g) (g_done g) (g_found g) (g_ret g) (g_reported g) l (g_threads g).

(** search.cc:915-958, the first half of the critical section. *)
Definition count_solution (g : shared) (i trial : nat) (found : option (list nat)) : shared :=
  if g_done g then g
  else
    match found with
    | None => g
    | Some acts =>
        let known := solution_as_conflict o && conflict_ck (g_conf g) (fs_of acts) in
        let conf := if solution_as_conflict o && negb known
                    then add_conflict place (g_conf g) (fs_of acts) else g_conf g in
        if known then g
        else mkShared conf (negb (try_all o)) true acts (g_reported g ++ [mkReport i trial acts])
               (g_lock g) (g_threads g)
    end.

(** search.cc:967-1000, the second half: the conflicts of the thread and the
    shared ones become the same. *)
Definition merge_conflicts (g : shared) (t : thread) : shared * thread :=
  if negb (g_done g) || conflicts_file o then
    let f := trim (add_family place (t_fam t) (g_conf g)) max_conflict_sz in
    (mkShared f (g_done g || negb (sat_ck f)) (g_found g) (g_ret g) (g_reported g) (g_lock g) (g_threads g),
     mkThread f (t_base t) (t_trial t) (t_phase t))
  else (g, t).

(** search.cc:1014-1024: candidates that have become impossible are dropped;
    synlvl.candidates are those of the first instance. *)
Definition drop_impossible (g : shared) (t : thread) : shared * thread :=
  let next f b := mkThread f b (S (t_trial t)) Head in
  if g_done g then (g, next (t_fam t) (t_base t))
  else
    let imp := filter (fun a => memb a (match t_base t with p :: _ => p_cands p | [] => [] end))
                 (impossible (t_fam t)) in
    if is_empty imp then (g, next (t_fam t) (t_base t))
    else
      match revise place clash rounds (t_fam t) (t_base t) [] (fold_right sadd [] imp) with
      | (f, Good b) => (g, next f b)
      | (f, Bad) => (set_done g, next f (t_base t))
      | (f, Stuck) => (g, set_phase t Failed)
      end.

(** What happens: a signal or the file kill-protocon (search.cc:372-395) sets the
    flag, or thread [i] makes its next step.  [fuel] bounds the number of
    iterations of the run of the search that starts then, if one starts, and
    [pick] is how it picks candidates. *)
Inductive event :=
| Kill
| Move (i fuel : nat) (pick : nat -> node -> option nat).

Definition move (g : shared) (i fuel : nat) (pick : nat -> node -> option nat) : shared :=
  match nth_error (g_threads g) i with
  | None => g
  | Some t =>
      match t_phase t with
      | Head =>
          if g_done g || (negb (ntrials o =? 0) && (ntrials o <=? t_trial t))
          then put g i (set_phase t Gone)
          else put g i (set_phase t Trying)
      | Trying =>
          match add_stabilization place clash max_depth max_height max_conflict_sz rounds (t_base t) pick fuel (t_fam t) with
          | (f, Found acts) => put g i (mkThread f (t_base t) (t_trial t) (Tried (Some acts)))
          | (f, NotFound) => put g i (mkThread f (t_base t) (t_trial t) (Tried None))
          | (f, Halted) =>
              (* search.cc:98: interrupted, if the flag is set *)
              put g i (mkThread f (t_base t) (t_trial t) (if g_done g then Tried None else Failed))
          end
      | Tried found =>
          match g_lock g with
          | Some _ => g
          | None => put (set_lock (count_solution g i (t_trial t) found) (Some i)) i (set_phase t Inside)
          end
      | Inside =>
          let '(g', t') := merge_conflicts g t in
          put (set_lock g' None) i (set_phase t' Merged)
      | Merged =>
          let '(g', t') := drop_impossible g t in put g' i t'
      | Gone => g
      | Failed => g
      end
  end.

Definition happen (g : shared) (e : event) : shared :=
  match e with
  | Kill => set_done g
  | Move i fuel pick => move g i fuel pick
  end.
Definition run (g : shared) (evs : list event) : shared := fold_left happen evs g.

(** search.cc:714-776: [n] threads start with the conflicts [f] and initialise
    themselves (517-645; [start]); if that fails the flag is set.  [None]: a
    failed Claim. *)
Definition begin_search (n : nat) (f : family) (insts : list inst) (given : list nat) : option shared :=
  match start place clash rounds f insts given with
  | (f', Good base) =>
      Some (mkShared f false false [] [] None (repeat (mkThread f' base 0 Head) n))
  | (f', Bad) =>
      Some (mkShared f true false [] [] None (repeat (mkThread f' [] 0 Head) n))
  | (_, Stuck) => None
  end.

(** search.cc:1027-1047: the result, and the conflicts that are written. *)
Definition result (g : shared) : option (list nat) := if g_found g then Some (g_ret g) else None.
Definition conflicts_written (g : shared) : family := trim (g_conf g) max_conflict_sz.

(** * MinimizeConflictsTask, search.cc:799-829 *)

(** What one thread does with the conflicts it gets. *)
Fixpoint minimise (base : list part) (f : family) (todo : list fset) : res family :=
  match todo with
  | [] => Good f
  | c :: todo' =>
      if 1 <? length c then
        match add_small place clash max_conflict_sz rounds base f base c with
        | Good f' => minimise base f' todo'
        | x => x
        end
      else minimise base f todo'
  end.

(** [given_out] lists, for each thread in the order in which they reach the
    critical section 823-827, the conflicts it got.  Each thread starts with [f1]
    and [base]. *)
Fixpoint minimise_all (base : list part) (f1 conf : family) (given_out : list (list fset)) : res family :=
  match given_out with
  | [] => Good conf
  | cs :: rest =>
      match minimise base f1 cs with
      | Good f => minimise_all base f1 (add_family place conf f) rest
      | x => x
      end
  end.
End Par.

(** * The order in which conflicts are minimised, search.cc:472-512 *)

(** The size classes 484-491. *)
Definition of_size (n : nat) (cs : list fset) : list fset := filter (fun c => length c =? n) cs.
Definition max_size (cs : list fset) : nat := fold_right (fun c m => max (length c) m) 0 cs.
Definition lo_hi (cs : list fset) : list fset := flat_map (fun n => of_size n cs) (seq 0 (S (max_size cs))).
Definition hi_lo (cs : list fset) : list fset := flat_map (fun n => of_size n cs) (rev (seq 0 (S (max_size cs)))).
