(** Model of the guided livelock check, the tile continuation digraphs and the
    cycle search of /repo/src/uni/livelock.cc:178-394. *)
From Coq Require Import List Arith Bool.
From Verif Require Import FinLib UniModel LivelockModel.
Import ListNotations.

(** * Guided livelock check *)

(** Row construction, livelock.cc:188-206: [None] is "return Nil". *)
Fixpoint guided_row (t : list nat) (M w : nat) (top : list nat) : option (list nat) :=
  match top with
  | [] => Some []
  | b :: top' =>
      let c := ppg t M w b in
      if M <=? c then None
      else match guided_row t M c top' with
           | None => None
           | Some r => Some (c :: r)
           end
  end.

(** The ids of the tiles of one row, livelock.cc:229-235. *)
Fixpoint row_ids (M w : nat) (top mid : list nat) : list nat :=
  match top, mid with
  | b :: top', c :: mid' => id_of3 w b c M :: row_ids M c top' mid'
  | _, _ => []
  end.

(** Result; [GYes ids] carries the ids newly put into livelockset. *)
Inductive guided_result := GNil | GMay | GYes (ids : list nat).

(** The loop over [bot_west], livelock.cc:223-240. *)
Fixpoint guided_loop (rec : nat -> guided_result) (own : list nat) (ws : list nat)
    (impossible : bool) : guided_result :=
  match ws with
  | [] => if impossible then GNil else GMay
  | w :: ws' =>
      match rec w with
      | GYes ids => GYes (ids ++ own)
      | GNil => guided_loop rec own ws' impossible
      | GMay => guided_loop rec own ws' false
      end
  end.

(** [guided_livelock_semick_rec], livelock.cc:178-242.  [norths] are the second
    components of match_row (lists of equal, non-zero length). *)
Fixpoint guided_rec (t : list nat) (M : nat) (norths : list nat) (limit : nat)
    (top : list nat) (mid_west : nat) : guided_result :=
  match guided_row t M mid_west top with
  | None => GNil
  | Some mid =>
      if negb (last mid 0 =? mid_west) then GMay
      else if nat_list_eqb mid norths then GYes []
      else match limit with
           | 0 => GMay
           | S limit' =>
               guided_loop (guided_rec t M norths limit' mid)
                 (row_ids M mid_west top mid) (seq 0 M) true
           end
  end.

(** First row of [guided_livelock_ck], livelock.cc:251-258. *)
Definition acts_row (t : list nat) (M : nat) (acts : list (nat * nat)) : list nat :=
  map (fun ab => ppg t M (fst ab) (snd ab)) acts.
Definition acts_ids (t : list nat) (M : nat) (acts : list (nat * nat)) : list nat :=
  map (fun ab => id_of3 (fst ab) (snd ab) (ppg t M (fst ab) (snd ab)) M) acts.

(** The loop livelock.cc:260-267. *)
Fixpoint guided_first (rec : nat -> guided_result) (ws : list nat) : option (list nat) :=
  match ws with
  | [] => None
  | w :: ws' => match rec w with GYes ids => Some ids | _ => guided_first rec ws' end
  end.

(** [guided_livelock_ck], livelock.cc:244-271, for limit >= 1 (the code computes
    limit-1 in unsigned arithmetic).  [Some ids] is "true" and [ids] are the
    elements of livelockset. *)
Definition guided_livelock_ck (t : list nat) (M : nat) (acts : list (nat * nat)) (limit : nat)
  : option (list nat) :=
  match guided_first (guided_rec t M (map snd acts) (limit - 1) (acts_row t M acts)) (seq 0 M) with
  | Some ids => Some (acts_ids t M acts ++ ids)
  | None => None
  end.

(** * Cycle search *)

(** The for loop livelock.cc:289-296: first not yet visited destination at or
    after position [i]; returns its position and the node. *)
Fixpoint next_unvisited (visited : list bool) (arcs : list nat) (i : nat) : option (nat * nat) :=
  match arcs with
  | [] => None
  | y :: arcs' => if nth y visited false then next_unvisited visited arcs' (S i) else Some (i, y)
  end.

(** The while loop livelock.cc:284-302.  The stack is a list with the top first;
    [adj x] are the arcs from x in order.  [None] = out of fuel (proved
    impossible with the fuel below). *)
Fixpoint dfs (fuel init : nat) (adj : nat -> list nat) (stack : list (nat * nat))
    (visited : list bool) : option (list (nat * nat)) :=
  match fuel with
  | 0 => None
  | S fuel' =>
      match stack with
      | [] => Some []
      | (x, i0) :: rest =>
          match next_unvisited visited (skipn i0 (adj x)) i0 with
          | None => dfs fuel' init adj rest visited
          | Some (i, y) =>
              if y =? init then Some ((x, i + 1) :: rest)
              else dfs fuel' init adj ((y, 0) :: (x, i + 1) :: rest) (upd visited y true)
          end
      end
  end.

(** [cycle_ck_from], livelock.cc:273-304, on a digraph of [n] nodes; the result is
    the final stack (top first), and the returned boolean is "stack not empty".
    The early return for degree 0 (line 277-279) leaves the caller's stack
    untouched; it is modelled as an empty stack. *)
Definition cycle_ck_from (n init : nat) (adj : nat -> list nat) : option (list (nat * nat)) :=
  if length (adj init) =? 0 then Some []
  else dfs (2 * n + 2) init adj [(init, 0)] (repeat false n).

(** * Tile continuation digraphs, as the sequence of arcs added *)

(** [make_tile_cont_digraph], livelock.cc:307-353. *)
Definition tile_arcs (actset : list bool) (t : list nat) (M : nat) : list (nat * nat) :=
  flat_map (fun actid =>
    let '(a, b, c) := uniact_of_id actid M in
    flat_map (fun d =>
      if action_mask_overlap_ck (M, c, d) actset M then
        flat_map (fun e =>
          let f := ppg t M c e in
          if f <? M then
            let g := ppg t M d f in
            if g <? M then
              if action_mask_overlap_ck (b, M, e) actset M
              then [(id_of3 a b d M, id_of3 c e g M)] else []
            else []
          else []) (seq 0 M)
      else []) (seq 0 M)) (ones actset).

(** [make_overapprox_tile_cont_digraph], livelock.cc:355-394. *)
Definition overapprox_tile_arcs (actset : list bool) (M : nat) : list (nat * nat) :=
  flat_map (fun actid =>
    let '(a, b, c) := uniact_of_id actid M in
    flat_map (fun d =>
      if action_mask_overlap_ck (M, c, d) actset M then
        flat_map (fun e =>
          if action_mask_overlap_ck (b, M, e) actset M then
            flat_map (fun f =>
              if nth (id_of3 c e f M) actset false then
                flat_map (fun g =>
                  if nth (id_of3 d f g M) actset false
                  then [(id_of3 a b d M, id_of3 c e g M)] else []) (seq 0 M)
              else []) (seq 0 M)
          else []) (seq 0 M)
      else []) (seq 0 M)) (ones actset).

(** Arcs of a node in the digraph built from a sequence of arc additions (what
    the adjacency list of adjlist.hh provides, see AdjModel/AdjProps). *)
Definition arcs_of (arcs : list (nat * nat)) (x : nat) : list nat :=
  map snd (filter (fun a => fst a =? x) arcs).
