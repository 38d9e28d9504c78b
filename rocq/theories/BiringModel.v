(** Model of /repo/src/biring.cc: local invariants of bidirectional rings.  A set
    of local views (x[i-1], x[i], x[i+1]) over values below [domsz] is a table of
    domsz^3 bits ([BitTable]: [list bool]).  Unsigned numbers are unbounded; bits
    outside a table are 0, and the theorems have tables of the right size. *)
From Coq Require Import List Arith Bool.
From Verif Require Import Radix.
Import ListNotations.

Definition bits := list bool.
Definition ck (s : bits) (i : nat) : bool := nth i s false.
Fixpoint set_bit (s : bits) (i : nat) (b : bool) : bits :=
  match s, i with
  | [], _ => []
  | _ :: r, 0 => b :: r
  | x :: r, S j => x :: set_bit r j b
  end.
(** The loop from begidx to the end by nextidx, e.g. biring.cc:261-263. *)
Definition members (s : bits) : list nat := filter (ck s) (seq 0 (length s)).

Section Biring.
Variable domsz : nat.

(** pc_config_of_enum_idx, biring.cc:103-114: (x[i-1], x[i], x[i+1]). *)
Definition pc_config_of_enum_idx (e : nat) : nat * nat * nat :=
  let tmp := state_of_index e [domsz; domsz; domsz] in
  (nth 1 tmp 0, nth 0 tmp 0, nth 2 tmp 0).
(** enum_idx_of_pc_config, biring.cc:116-128. *)
Definition enum_idx_of_pc_config (c : nat * nat * nat) : nat :=
  let '(a, b, d) := c in index_of_state [b; a; d] [domsz; domsz; domsz].

(** direct_biring_continuations and biring_continuations, biring.cc:158-187. *)
Definition continuations (e : nat) (set : bits) : list nat :=
  let '(_, b, d) := pc_config_of_enum_idx e in
  filter (ck set) (map (fun i => enum_idx_of_pc_config (b, d, i)) (seq 0 domsz)).

(** The inner loop of biring_legit_enum_idx, biring.cc:202-211.  Tables [cache]
    and [frontier]; the first component is [found]. *)
Fixpoint look_at (e : nat) (conts : list nat) (cache frontier : bits) : bool * bits * bits :=
  match conts with
  | [] => (false, cache, frontier)
  | c :: r =>
      if c =? e then (true, cache, frontier)
      else if ck cache c then look_at e r cache frontier
      else look_at e r (set_bit cache c true) (set_bit frontier c true)
  end.

(** begidx_BitTable: the first 1, or the size. *)
Fixpoint begidx (s : bits) : nat :=
  match s with [] => 0 | true :: _ => 0 | false :: r => S (begidx r) end.

(** The loop biring.cc:199-213; [fuel]: [length set] passes suffice (proved). *)
Fixpoint legit_loop (fuel : nat) (set : bits) (e idx : nat) (cache frontier : bits) : option bool :=
  if idx <? length set then
    match fuel with
    | 0 => None
    | S fuel' =>
        let '(found, cache', frontier') := look_at e (continuations idx set) cache (set_bit frontier idx false) in
        if found then Some true else legit_loop fuel' set e (begidx frontier') cache' frontier'
    end
  else Some false.

(** biring_legit_enum_idx, biring.cc:189-215. *)
Definition legit_enum_idx (set : bits) (e : nat) : option bool :=
  let zero := repeat false (length set) in
  legit_loop (length set) set e e (set_bit zero e true) (set_bit zero e true).

(** biring_fixpoint, biring.cc:256-271: the table is changed while it is walked
    through. *)
Fixpoint fixpoint_loop (todo : list nat) (set : bits) : option bits :=
  match todo with
  | [] => Some set
  | e :: r =>
      if ck set e then
        match legit_enum_idx set e with
        | None => None
        | Some true => fixpoint_loop r set
        | Some false => fixpoint_loop r (set_bit set e false)
        end
      else fixpoint_loop r set
  end.
Definition biring_fixpoint (set : bits) : option bits := fixpoint_loop (seq 0 (length set)) set.

(** [img], biring.cc:331-353: the 1s of the result are the continuations of the 1s. *)
Definition img (xn pre : bits) : bits :=
  map (fun i => existsb (Nat.eqb i) (flat_map (fun e => continuations e xn) (members pre))) (seq 0 (length xn)).

Definition bits_eqb (a b : bits) : bool := if list_eq_dec bool_dec a b then true else false.

(** The inner loop of true_biring_sat_ck, biring.cc:374-386.  The result is the
    number of visited sets when a fixed point was found. *)
Fixpoint sat_loop (fuel : nat) (xn : bits) (e : nat) (visited : list bits) (pre : bits) : option (option nat) :=
  match fuel with
  | 0 => None
  | S fuel' =>
      if existsb (bits_eqb pre) visited then Some None
      else
        let visited' := pre :: visited in
        let im := img xn pre in
        if ck im e && bits_eqb pre im then Some (Some (length visited'))
        else sat_loop fuel' xn e visited' im
  end.

Definition single (n e : nat) : bits := set_bit (repeat false n) e true.

(** true_biring_sat_ck, biring.cc:359-389. *)
Fixpoint true_sat_from (fuel : nat) (xn : bits) (es : list nat) : option (option nat) :=
  match es with
  | [] => Some None
  | e :: r =>
      match sat_loop fuel xn e [] (single (length xn) e) with
      | Some None => true_sat_from fuel xn r
      | x => x
      end
  end.
Definition true_biring_sat_ck (fuel : nat) (xn : bits) : option (option nat) :=
  true_sat_from fuel xn (members xn).

(** biring.cc:418-425: for step_idx from [k] on, [m] times. *)
Fixpoint mark_steps (set : bits) (e k m : nat) (pre sats : bits) : bits :=
  match m with
  | 0 => sats
  | S m' =>
      let im := img set pre in
      mark_steps set e (S k) m' im (if ck im e then set_bit sats k true else sats)
  end.

(** biring.cc:427-429. *)
Fixpoint lower (N0 : nat) (sats : bits) (N : nat) : nat :=
  match N with
  | 0 => 0
  | S N' => if (N0 <=? N) && ck sats N then lower N0 sats N' else N
  end.

(** biring.cc:411-434. *)
Fixpoint small_sizes (set : bits) (N0 : nat) (es : list nat) (sats : bits) (N : nat) : bool :=
  match es with
  | [] => false
  | e :: r =>
      let sats' := mark_steps set e 1 N (single (length set) e) sats in
      let N' := lower N0 sats' N in
      if N' <? N0 then true else small_sizes set N0 r sats' N'
  end.

(** biring_sat_ck, biring.cc:391-435. *)
Definition biring_sat_ck (fuel : nat) (set : bits) (N0 : nat) : option bool :=
  match true_biring_sat_ck fuel set with
  | None => None
  | Some None => Some false
  | Some (Some nsteps) =>
      let N := nsteps - 1 in
      if (N0 =? 0) || (N <? N0) then Some true
      else Some (small_sizes set N0 (members set) (repeat false (N + 1)) N)
  end.

(** The inner loop of local_propagation_syn, biring.cc:453-467: is there a value
    for the process which lets it leave the view with predecessor [a] and successor
    [d]?  [tmp_set] is [set] with one more 1. *)
Fixpoint can_leave (set : bits) (a d : nat) (cs : list nat) : option bool :=
  match cs with
  | [] => Some false
  | c :: r =>
      let idx := enum_idx_of_pc_config (a, c, d) in
      if ck set idx then Some true
      else match legit_enum_idx (set_bit set idx true) idx with
           | None => None
           | Some false => Some true
           | Some true => can_leave set a d r
           end
  end.

(** local_propagation_syn, biring.cc:436-473. *)
Fixpoint propagation_loop (set : bits) (todo : list nat) : option bool :=
  match todo with
  | [] => Some true
  | e :: r =>
      if ck set e then propagation_loop set r
      else
        let '(a, _, d) := pc_config_of_enum_idx e in
        match can_leave set a d (seq 0 domsz) with
        | Some true => propagation_loop set r
        | x => x
        end
  end.
Definition local_propagation_syn (set : bits) : option bool := propagation_loop set (seq 0 (length set)).
End Biring.
