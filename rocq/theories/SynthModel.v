(** Model of [unidirectionalRingProtocolGenerator], /repo/src/uni/synthesize.cc:58-151. *)
From Coq Require Import List Arith Bool.
From Verif Require Import FinLib UniModel.
Import ListNotations.

(** The M x M matrices L and Lprime; only entries below M are ever read. *)
Definition matrix := nat -> nat -> bool.

(** synthesize.cc:65-69. *)
Definition legit_matrix (legits : list (nat * nat)) : matrix :=
  fun i j => existsb (fun p => (fst p =? i) && (snd p =? j)) legits.

(** synthesize.cc:75-82: the first value with a legitimate self pair. *)
Definition find_gamma (L : matrix) (M : nat) : option nat := find (fun i => L i i) (seq 0 M).

(** synthesize.cc:96-107, the body for one [i]; the flag is modifiedMatrix. *)
Definition prune_vertex (M : nat) (st : matrix * bool) (i : nat) : matrix * bool :=
  let '(Lp, modified) := st in
  if existsb (fun j => Lp i j) (seq 0 M) then (Lp, modified)
  else (fun j k => if k =? i then false else Lp j k,
        modified || existsb (fun j => Lp j i) (seq 0 M)).

(** The consistency loop synthesize.cc:93-108; [None] = out of fuel (proved impossible). *)
Fixpoint prune (fuel M : nat) (Lp : matrix) : option matrix :=
  match fuel with
  | 0 => None
  | S fuel' =>
      let '(Lp', modified) := fold_left (prune_vertex M) (seq 0 M) (Lp, false) in
      if modified then prune fuel' M Lp' else Some Lp'
  end.

(** synthesize.cc:124-129 for one popped [j]. *)
Definition visit (M gamma : nat) (Lp : matrix) (j : nat) (tau queue : list nat) : list nat * list nat :=
  fold_left (fun st i =>
    let '(tau, queue) := st in
    if negb (i =? gamma) && (nth i tau 0 =? i) && Lp i j
    then (upd tau i j, queue ++ [i]) else (tau, queue))
    (seq 0 M) (tau, queue).

(** The queue loop synthesize.cc:121-131. *)
Fixpoint bfs (fuel M gamma : nat) (Lp : matrix) (tau queue : list nat) : option (list nat) :=
  match fuel with
  | 0 => None
  | S fuel' =>
      match queue with
      | [] => Some tau
      | j :: queue' => let '(tau', q') := visit M gamma Lp j tau queue' in bfs fuel' M gamma Lp tau' q'
      end
  end.

(** synthesize.cc:133-137. *)
Definition finish_tau (M gamma : nat) (tau : list nat) : list nat :=
  map (fun i => if nth i tau 0 =? i then gamma else nth i tau 0) (seq 0 M).

(** synthesize.cc:141-144. *)
Definition tau_actions (M : nat) (Lp : matrix) (tau : list nat) : list UniAct :=
  flat_map (fun i => flat_map (fun k =>
    if negb (Lp i k) && negb (nth i tau 0 =? k) then [(i, k, nth i tau 0)] else [])
    (seq 0 M)) (seq 0 M).

(** The whole generator; [None] = some loop ran out of fuel. *)
Definition generate (legits : list (nat * nat)) (M : nat) : option (list UniAct) :=
  let L := legit_matrix legits in
  match find_gamma L M with
  | None => Some []
  | Some gamma =>
      match prune (M * M + 1) M L with
      | None => None
      | Some Lp =>
          match bfs (M + 2) M gamma Lp (seq 0 M) [gamma] with
          | None => None
          | Some tau => Some (tau_actions M Lp (finish_tau M gamma tau))
          end
      end
  end.
