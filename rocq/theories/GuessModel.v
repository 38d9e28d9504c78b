(** Testing solutions that the user suggests: options -x-try, -x-try-subset and
    the task -test, search.cc:832-878, and starting the search from a suggestion,
    search.cc:900-904 and main-mpi.cc:200-204.  On top of SearchModel.v.
    Simplified as there: the log is not modelled. *)
From Coq Require Import List Arith Bool.
From Verif Require Import RankModel ConflictModel SearchModel.
Import ListNotations.

(** [Set::subseteq_ck], as used in search.cc:856 and 862. *)
Definition subset_ck (a b : list nat) : bool := forallb (fun x => memb x b) a.

(** PartialSynthesis::candidate_ck, synthesis.hh:198-207: in some instance. *)
Definition candidate_ck (ps : list part) (a : nat) : bool := existsb (fun p => memb a (p_cands p)) ps.
(** PartialSynthesis::delegate_ck, synthesis.hh:208-214: the first instance. *)
Definition delegate_ck (ps : list part) (a : nat) : bool :=
  match ps with p :: _ => memb a (p_actions p) | [] => false end.

Section Guess.
Variable place : fset -> list fset -> nat.
Variable clash : nat -> nat -> bool.
Variables max_depth max_height max_conflict_sz rounds : nat.
(** ctx->base_partial: where trials start. *)
Variable base : list part.
Variable pick : nat -> node -> option nat.

Notation revise := (revise place clash rounds).
Notation add_small := (add_small place clash max_conflict_sz rounds base).
Notation search := (search place clash max_depth max_height max_conflict_sz rounds base pick).

(** PartialSynthesis::pick_action, synthesis.cc:1525-1537. *)
Definition pick_action (f : family) (ps : list part) (pk : list nat) (a : nat)
  : family * res (list part * list nat) :=
  match revise f ps [a] [] with
  | (f', Good ps') => (f', Good (ps', pk ++ [a]))
  | (f', Stuck) => (f', Stuck)
  | (f', Bad) => match add_small f' ps (pk ++ [a]) with Good f'' => (f'', Bad) | _ => (f', Stuck) end
  end.

(** PartialSynthesis::pick_actions, synthesis.cc:1539-1553. *)
Definition pick_actions (f : family) (ps : list part) (pk acts : list nat)
  : family * res (list part * list nat) :=
  match revise f ps (fold_right sadd [] acts) [] with
  | (f', Good ps') => (f', Good (ps', pk ++ acts))
  | (f', Stuck) => (f', Stuck)
  | (f', Bad) => match add_small f' ps (pk ++ acts) with Good f'' => (f'', Bad) | _ => (f', Stuck) end
  end.

(** PartialSynthesis::pick_actions_separately, synthesis.cc:1555-1583. *)
Fixpoint pick_separately (f : family) (ps : list part) (pk acts : list nat) (add_missing : bool)
  : family * res (list part * list nat) :=
  match acts with
  | [] => (f, Good (ps, pk))
  | a :: acts' =>
      if negb (candidate_ck ps a) && (negb add_missing || delegate_ck ps a)
      then pick_separately f ps pk acts' add_missing
      else match pick_action f ps pk a with
           | (f', Good (ps', pk')) => pick_separately f' ps' pk' acts' add_missing
           | (f', Bad) => (f', Bad)
           | (f', Stuck) => (f', Stuck)
           end
  end.

(** AddStabilization, search.cc:72-90, called with a level that already has picks. *)
Definition stabilise_from (fuel : nat) (f : family) (ps : list part) (pk : list nat) : family * outcome :=
  if conflict_ck f (fs_of (match ps with p :: _ => p_actions p | [] => [] end))
  then (add_conflict place f [], NotFound)
  else search fuel 0 f [mkNode ps pk 0] 0.

(** One trial of the task -test, search.cc:838-864.  [guess] is in the order in
    which it is tried: that of the file, or any other with a random pick
    (search.cc:846-848).  [subset]: the guess was given by -x-try-subset. *)
Definition trial (fuel : nat) (f : family) (guess : list nat) (subset : bool) : family * outcome :=
  match pick_separately f base [] guess (negb subset) with
  | (f', Stuck) => (f', Halted)
  | (f', Bad) => (f', NotFound)
  | (f', Good (ps, pk)) =>
      if existsb p_dead ps then (f', NotFound)
      else match stabilise_from fuel f' ps pk with
           | (f2, Found acts) =>
               if subset_ck acts guess && (subset || subset_ck guess acts) then (f2, Found acts)
               else (f2, NotFound)
           | x => x
           end
  end.

(** Searching from a guess, search.cc:900-904. *)
Definition from_guess (fuel : nat) (f : family) (guess : list nat) : family * outcome :=
  match pick_actions f base [] guess with
  | (f', Stuck) => (f', Halted)
  | (f', Bad) => (f', NotFound)
  | (f', Good (ps, pk)) => stabilise_from fuel f' ps pk
  end.
End Guess.

(** * The task -test with several threads, search.cc:832-878 *)

(** What the threads share: solution_found, ret_actions and done_flag. *)
Record shared := mkShared { s_found : bool; s_actions : list nat; s_done : bool }.

(** A thread: the number of its next trial, whether it is in the middle of one,
    and whether it has left the loop. *)
Record thread := mkThread { t_trial : nat; t_busy : bool; t_out : bool }.

Record team := mkTeam { m_shared : shared; m_threads : list thread }.

(** What can happen: a thread tests the condition of its loop
    (search.cc:834-836), a thread ends a trial with a result and enters the
    critical section (search.cc:865-877), or a signal arrives (search.cc:374-399). *)
Inductive event :=
| Look (pc : nat)
| End (pc : nat) (result : option (list nat))
| Signal.

Fixpoint set_nth {A} (i : nat) (x : A) (l : list A) : list A :=
  match l, i with
  | [], _ => []
  | _ :: r, 0 => x :: r
  | y :: r, S j => y :: set_nth j x r
  end.

(** The guess a thread works on: NPcs * trial_idx + PcIdx, search.cc:840. *)
Definition guess_of (npcs pc trial : nat) : nat := npcs * trial + pc.

Definition look (nguesses : nat) (m : team) (pc : nat) : option team :=
  match nth_error (m_threads m) pc with
  | Some t =>
      if t_busy t || t_out t then None
      else
        let t' := if negb (s_done (m_shared m)) &&
                     (guess_of (length (m_threads m)) pc (t_trial t) <? nguesses)
                  then mkThread (t_trial t) true false
                  else mkThread (t_trial t) false true in
        Some (mkTeam (m_shared m) (set_nth pc t' (m_threads m)))
  | None => None
  end.

(** search.cc:866-877. *)
Definition report (s : shared) (result : option (list nat)) : shared :=
  if s_done s then s
  else match result with
       | None => mkShared false [] true
       | Some acts => if s_found s then s else mkShared true acts (s_done s)
       end.

Definition end_trial (m : team) (pc : nat) (result : option (list nat)) : option team :=
  match nth_error (m_threads m) pc with
  | Some t =>
      if t_busy t
      then Some (mkTeam (report (m_shared m) result)
                        (set_nth pc (mkThread (S (t_trial t)) false false) (m_threads m)))
      else None
  | None => None
  end.

(** One event; [None]: it cannot happen now. *)
Definition happen (nguesses : nat) (m : team) (e : event) : option team :=
  match e with
  | Look pc => look nguesses m pc
  | End pc result => end_trial m pc result
  | Signal => Some (mkTeam (mkShared (s_found (m_shared m)) (s_actions (m_shared m)) true) (m_threads m))
  end.

Fixpoint happens (nguesses : nat) (m : team) (es : list event) : option team :=
  match es with
  | [] => Some m
  | e :: es' => match happen nguesses m e with Some m' => happens nguesses m' es' | None => None end
  end.

(** Before the loop: nothing has been found (search.cc:708). *)
Definition team0 (npcs : nat) : team :=
  mkTeam (mkShared false [] false) (repeat (mkThread 0 false false) npcs).
