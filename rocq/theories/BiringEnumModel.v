(** Model of the enumeration of local invariants in /repo/src/biring.cc.  The order
    of bit tables ([operator>] of the library) is a parameter [gt]; the maps of
    values are functions. *)
From Coq Require Import List Arith Bool.
From Verif Require Import Radix BiringModel.
Import ListNotations.

Section Enum.
Variable domsz : nat.
Variable gt : bits -> bits -> bool.

(** permute_pc_config, biring.cc:69-86. *)
Definition permute_pc_config (set : bits) (perm_map : nat -> nat) : bits :=
  let doms := [domsz; domsz; domsz] in
  fold_left (fun bt i => set_bit bt (index_of_state (map perm_map (state_of_index i doms)) doms) true)
    (members set) (repeat false (length set)).

(** biring.cc:478-483: the sizes of the choices for all but the last value. *)
Definition perm_doms : list nat := map (fun i => domsz - i) (seq 0 (domsz - 1)).

Definition swap (f : nat -> nat) (i j : nat) : nat -> nat :=
  fun k => if k =? i then f j else if k =? j then f i else f k.

(** biring.cc:491-496: [i] is the position of the first of [vals]. *)
Fixpoint perm_of (f : nat -> nat) (i : nat) (vals : list nat) : nat -> nat :=
  match vals with [] => f | v :: r => perm_of (swap f i (i + v)) (S i) r end.

(** All maps that the loops biring.cc:489-503 and 519-533 go through. *)
Definition perm_maps : list (nat -> nat) :=
  map (fun idx => perm_of (fun k => k) 0 (state_of_index idx perm_doms)) (seq 0 (prod perm_doms)).

(** canonical_set, biring.cc:475-506. *)
Definition canonical_set (set : bits) : bits :=
  fold_left (fun min f => let bt := permute_pc_config set f in if gt bt min then bt else min) perm_maps set.

(** subseteq_ck of tables of the same size. *)
Definition subseteq_ck (a b : bits) : bool := forallb (ck b) (members a).

(** subgraph_isomorphism_ck, biring.cc:508-535. *)
Definition subgraph_isomorphism_ck (a b : bits) : bool :=
  existsb (fun f => subseteq_ck (permute_pc_config a f) b) perm_maps.

(** recurse, biring.cc:608-700.  [db] is the list of what was printed, in this
    order: a set is printed when it is put into [db].  [fuel] is that of
    biring_sat_ck.  [enter] is the part before the loop, which begins at [q]. *)
Variable pair : bool.
Variable minsz fuel : nat.

Definition db_t := list bits.

Definition enter (loop : bits -> db_t -> option db_t) (set : bits) (db : db_t) : option db_t :=
  match biring_fixpoint domsz set with
  | None => None
  | Some s =>
      match biring_sat_ck domsz fuel s minsz with
      | None => None
      | Some false => Some db
      | Some true =>
          let c := canonical_set s in
          if existsb (bits_eqb c) db then Some db else loop s (db ++ [c])
      end
  end.

(** biring.cc:684-694. *)
Definition without (set : bits) (q : nat) : bits :=
  let bt := set_bit set q false in
  if pair then
    let '(a, b, _) := pc_config_of_enum_idx domsz q in
    fold_left (fun bt i => set_bit bt (enum_idx_of_pc_config domsz (a, b, i)) false) (seq 0 domsz) bt
  else bt.

Fixpoint recurse_loop (q : nat) (set : bits) (db : db_t) : option db_t :=
  match q with
  | 0 => Some db
  | S q' =>
      if ck set q' then
        match enter (recurse_loop q') (without set q') db with
        | None => None
        | Some db' => recurse_loop q' set db'
        end
      else recurse_loop q' set db
  end.
Definition recurse (set : bits) (q : nat) (db : db_t) : option db_t := enter (recurse_loop q) set db.

(** searchit, biring.cc:702-731. *)
Definition start_set (trivial : bool) : bits :=
  let all := repeat true (domsz * domsz * domsz) in
  if trivial then all
  else fold_left (fun set v =>
         if pair then fold_left (fun set i => set_bit set (enum_idx_of_pc_config domsz (v, v, i)) false) (seq 0 domsz) set
         else set_bit set (enum_idx_of_pc_config domsz (v, v, v)) false) (seq 0 domsz) all.
Definition searchit (trivial : bool) : option db_t :=
  recurse (start_set trivial) (domsz * domsz * domsz) [].
End Enum.
