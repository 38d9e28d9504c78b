(** Model of the rankings used by the synthesiser: deadlocks by the number of
    candidate actions that resolve them (/repo/src/synthesis.cc:122-261) and
    states and actions by distance (/repo/src/search.cc:311-357).  State sets
    are those of ReachModel.v. *)
From Coq Require Import List Arith Bool.
From Verif Require Import FinLib ReachModel.
Import ListNotations.

(** [Set<uint>] (std::set): increasing lists; [<<], [&], [-=], [|=]. *)
Fixpoint sadd (x : nat) (l : list nat) : list nat :=
  match l with
  | [] => [x]
  | y :: r => if x <? y then x :: l else if x =? y then l else y :: sadd x r
  end.
Definition smem (x : nat) (l : list nat) : bool := existsb (Nat.eqb x) l.
Definition sand (a b : list nat) : list nat := filter (fun x => smem x b) a.
Definition sminus (a b : list nat) : list nat := filter (fun x => negb (smem x b)) a.
Definition sor (a b : list nat) : list nat := fold_left (fun l x => sadd x l) b a.
Definition is_empty (l : list nat) : bool := match l with [] => true | _ => false end.

Section Rank.
Variable St : Type.
Variable eq_dec : forall x y : St, {x = y} + {x <> y}.
Variable univ : list St.

Notation pred := (St -> bool).
Notation rel := (St -> St -> bool).
Notation sat := (sat St univ).
Notation taut := (taut St univ).
Notation overlap := (overlap St univ).
Notation pand := (pand St eq_dec univ).
Notation por := (por St eq_dec univ).
Notation pminus := (pminus St eq_dec univ).
Notation pre := (pre St eq_dec univ).
Notation img := (img St eq_dec univ).
Definition pfalse : pred := fun _ => false.

(** [topo.action_pfmla(a).pre()]: the states in which action [a] is enabled. *)
Variable guard : nat -> pred.

(** [DeadlockConstraint], synthesis.hh:23-31. *)
Record dlset := mkDl { dl_states : pred; dl_cands : list nat }.
Definition dl0 : dlset := mkDl pfalse [].

(** The while loop of synthesis.cc:134-145: [i] counts down, [act_pre] is the
    guard of the candidate. *)
Fixpoint bump (act_pre : pred) (i : nat) (d : list dlset) : list dlset :=
  match i with
  | 0 => d
  | S i' =>
      let resolved := pand (dl_states (nth i' d dl0)) act_pre in
      let d' :=
        if sat resolved then
          let d1 := if i' =? length d - 1 then d ++ [mkDl pfalse []] else d in
          let a := nth i' d1 dl0 in
          let d2 := upd d1 i' (mkDl (pminus (dl_states a) resolved) (dl_cands a)) in
          let b := nth (S i') d2 dl0 in
          upd d2 (S i') (mkDl (por (dl_states b) resolved) (dl_cands b))
        else d in
      bump act_pre i' d'
  end.

(** synthesis.cc:131-146. *)
Fixpoint rank_loop (candidates : list nat) (d : list dlset) : list dlset :=
  match candidates with
  | [] => d
  | a :: cs => rank_loop cs (bump (guard a) (length d) d)
  end.

(** synthesis.cc:147-155. *)
Definition note_candidate (a : nat) (d : list dlset) : list dlset :=
  map (fun x => if overlap (guard a) (dl_states x)
                then mkDl (dl_states x) (sadd a (dl_cands x)) else x) d.
Fixpoint note_loop (candidates : list nat) (d : list dlset) : list dlset :=
  match candidates with
  | [] => d
  | a :: cs => note_loop cs (note_candidate a d)
  end.

(** [RankDeadlocksMRV], synthesis.cc:122-156. *)
Definition rank_deadlocks (candidates : list nat) (deadlock : pred) : list dlset :=
  if negb (sat deadlock) then []
  else note_loop candidates (rank_loop candidates [mkDl deadlock []]).

(** The union of guards, synthesis.cc:170-177. *)
Definition guards (acts : list nat) : pred :=
  fold_left (fun p a => por p (guard a)) acts pfalse.

(** Actions added, synthesis.cc:188-204 (one rank).  The test on
    synthesis.cc:197-198 is against the whole transition formula of the candidate;
    a set of states meets it exactly when it meets its guard. *)
Definition revise_adds (adds : list nat) (addGuard : pred) (x : dlset) : dlset :=
  let diff := sand (dl_cands x) (sand (dl_cands x) adds) in
  if is_empty diff then x
  else
    let cands := sminus (dl_cands x) diff in
    let states := pminus (dl_states x) addGuard in
    mkDl states (sminus cands (filter (fun a => negb (overlap states (guard a))) cands)).

(** The loop over ranks for one deleted candidate, synthesis.cc:222-232: [n]
    ranks are left, the current one is [j]. *)
Fixpoint push_down (g : pred) (n j : nat) (diff : list pred) (minidx : nat) : list pred * nat :=
  match n with
  | 0 => (diff, minidx)
  | S n' =>
      let p := pand g (nth j diff pfalse) in
      if sat p then
        let d1 := upd diff (j - 1) (por (nth (j - 1) diff pfalse) p) in
        let d2 := upd d1 j (pminus (nth j d1 pfalse) p) in
        push_down g n' (S j) d2 (if j =? minidx then minidx - 1 else minidx)
      else push_down g n' (S j) diff minidx
  end.

(** synthesis.cc:217-233; [None] is the failed Claim of line 221. *)
Fixpoint push_all (dels : list nat) (diff : list pred) (minidx : nat) : option (list pred * nat) :=
  match dels with
  | [] => Some (diff, minidx)
  | a :: r =>
      if 0 <? minidx then
        let '(diff', m') := push_down (guard a) (length diff - minidx) minidx diff minidx in
        push_all r diff' m'
      else None
  end.

(** The candidates of the ranks of the deadlocks moved, synthesis.cc:239-252:
    those listed for rank [j] of [diff]. *)
Definition moved_cands (cands : list nat) (moved : pred) (diff : list pred) (minidx i j : nat) : list nat :=
  fold_left (fun l a =>
    if negb (overlap (guard a) moved) then (if j =? i then sadd a l else l)
    else if (minidx <=? j) && (j <=? i) && overlap (guard a) (nth j diff pfalse)
         then sadd a l else l) cands [].

(** synthesis.cc:206-259 (rank [i] after the additions is [x]). *)
Definition revise_dels (dels : list nat) (delGuard : pred) (i : nat) (d : list dlset)
    : option (list dlset) :=
  let x := nth i d dl0 in
  let gone := sand (dl_cands x) (sand (dl_cands x) dels) in
  if is_empty gone then Some d
  else
    let moved := pand (dl_states x) delGuard in
    let kept := pminus (dl_states x) moved in
    match push_all gone (repeat pfalse i ++ [moved]) i with
    | None => None
    | Some (diff0, minidx) =>
        let cands := sminus (dl_cands x) gone in
        let diff := upd diff0 i kept in
        let lower j y :=
          if (minidx <=? j) && (j <? i)
          then mkDl (por (dl_states y) (nth j diff pfalse))
                    (sor (dl_cands y) (moved_cands cands moved diff minidx i j))
          else if j =? i
               then mkDl kept (sand cands (moved_cands cands moved diff minidx i i))
               else y in
        Some (map (fun p => lower (fst p) (snd p)) (combine (seq 0 (length d)) d))
    end.

(** The loop of synthesis.cc:179-260: [n] ranks are left, the next is [i]. *)
Fixpoint revise_loop (adds dels : list nat) (n i : nat) (d : list dlset) : option (list dlset) :=
  match n with
  | 0 => Some d
  | S n' =>
      let d1 := upd d i (revise_adds adds (guards adds) (nth i d dl0)) in
      match revise_dels dels (guards dels) i d1 with
      | None => None
      | Some d2 => revise_loop adds dels n' (S i) d2
      end
  end.

(** [ReviseDeadlocksMRV], synthesis.cc:163-261. *)
Definition revise_deadlocks (adds dels : list nat) (d : list dlset) : option (list dlset) :=
  revise_loop adds dels (length d - 1) 1 d.

(** The loop of [rank_states], search.cc:316-326; [layers] is in reverse. *)
Fixpoint layer_loop (fuel : nat) (xn : rel) (layers : list pred) (visit layer : pred)
    : option (list pred * pred) :=
  match fuel with
  | 0 => None
  | S fuel' =>
      if sat layer then
        let visit' := por visit layer in
        layer_loop fuel' xn (layer :: layers) visit' (pminus (pre xn layer) visit')
      else Some (rev layers, visit)
  end.

(** [rank_states], search.cc:311-327: the layers and the returned value. *)
Definition rank_states (fuel : nat) (xn : rel) (legit : pred) : option (list pred * bool) :=
  match layer_loop fuel xn [legit] legit (pminus (pre xn legit) legit) with
  | Some (layers, visit) => Some (layers, taut visit)
  | None => None
  end.

(** The search for the layer of one action, search.cc:345-354: the first
    [j >= 1] with a step from layer [j] to layer [j-1], else the last one.
    [act_xn] is the transition relation of the action; [n] layers are left. *)
Fixpoint action_layer (act_xn : rel) (layers : list pred) (n j : nat) : nat :=
  match n with
  | 0 => length layers
  | S n' =>
      if overlap (img act_xn (nth j layers pfalse)) (nth (j - 1) layers pfalse) then j
      else action_layer act_xn layers n' (S j)
  end.

(** [rank_actions], search.cc:329-357; [None] inside is [return false]. *)
Definition rank_actions (fuel : nat) (act_xn : nat -> rel) (candidates : list nat)
    (xn : rel) (legit : pred) : option (option (list (list nat))) :=
  match rank_states fuel xn legit with
  | None => None
  | Some (_, false) => Some None
  | Some (layers, true) =>
      Some (Some (map (fun j => filter (fun a =>
                  action_layer (act_xn a) layers (length layers - 1) 1 =? j) candidates)
                (seq 0 (length layers + 1))))
  end.
End Rank.
