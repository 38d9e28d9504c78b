(** Model of /repo/src/uni/uniact.hh and the conversion / codec functions of
    /repo/src/uni/unifile.cc.

    Conventions.  [PcState] is [byte] (uniact.hh:7): values are naturals and the
    places where the code narrows to [byte] apply [byte] below.  [uint] and
    [zuint] are unbounded naturals (no 32-bit wrap-around is modelled: with
    domain sizes that fit in a byte all the index arithmetic here stays below
    2^32).  [Table<T>] is [list T], [BitTable] is [list bool].  Out-of-range
    reads give a default and out-of-range writes are dropped; the theorems
    carry the preconditions under which no such access occurs. *)
From Coq Require Import List Arith Bool Ascii.
From Verif Require Import FinLib.
Import ListNotations.

(** Narrowing to [PcState] (= [byte], uniact.hh:7). *)
Definition byte (x : nat) : nat := x mod 256.

(** [id_of2], uniact.hh:53-60 (the [Claim]s are preconditions). *)
Definition id_of2 (a b domsz : nat) : nat := a * domsz + b.

(** [id_of3], uniact.hh:62-70. *)
Definition id_of3 (a b c domsz : nat) : nat := (a * domsz + b) * domsz + c.

(** [UniAct] is a triple (predecessor, own, new own). uniact.hh:9-21. *)
Definition UniAct := (nat * nat * nat)%type.

(** [UniAct::of_id], uniact.hh:36-43; [ldiv] is quotient/remainder. *)
Definition uniact_of_id (actid domsz : nat) : UniAct :=
  let lo_quot := actid / domsz in
  let lo_rem := actid mod domsz in
  (lo_quot / domsz, lo_quot mod domsz, lo_rem).

(** [UniStep::of_id], uniact.hh:45-51. *)
Definition unistep_of_id (stepid domsz : nat) : nat * nat :=
  (stepid / domsz, stepid mod domsz).

(** The loop "while (measure(domsz) < sz) domsz += 1" of unifile.cc:18-20 and
    45-47; [fuel] is the loop bound ([sz] iterations suffice, proved). *)
Fixpoint grow_while (measure : nat -> nat) (sz fuel domsz : nat) : nat :=
  match fuel with
  | 0 => domsz
  | S fuel' =>
      if measure domsz <? sz then grow_while measure sz fuel' (domsz + 1) else domsz
  end.

(** [uniring_domsz_of(const Table<PcState>&)], unifile.cc:15-26. *)
Definition domsz_of_ppgfun (ppgfun : list nat) : nat :=
  let sz := length ppgfun in
  let domsz := grow_while (fun d => d * d) sz sz 0 in
  if sz =? domsz * domsz then byte domsz else 0.

(** [uniring_domsz_of(const Table<UniAct>&)], unifile.cc:28-40. *)
Definition domsz_of_acts (acts : list UniAct) : nat :=
  byte (fold_left
    (fun domsz act =>
       let '(a, b, c) := act in
       let domsz := if domsz <? a + 1 then a + 1 else domsz in
       let domsz := if domsz <? b + 1 then b + 1 else domsz in
       if domsz <? c + 1 then c + 1 else domsz)
    acts 0).

(** [uniring_domsz_of(const BitTable&)], unifile.cc:42-53. *)
Definition domsz_of_actset (actset : list bool) : nat :=
  let sz := length actset in
  let domsz := grow_while (fun d => d * d * d) sz sz 0 in
  if sz =? domsz * domsz * domsz then byte domsz else 0.

(** Iteration over the set bits, [begidx]/[nextidx] of cx/bittable.hh
    (external): the indices of the ones, ascending. *)
Definition ones (bt : list bool) : list nat :=
  filter (fun i => nth i bt false) (seq 0 (length bt)).

(** Body shared by the two [uniring_ppgfun_of]: write one action. *)
Definition put_act (domsz : nat) (ppgfun : list nat) (act : UniAct) : list nat :=
  let '(a, b, c) := act in upd ppgfun (id_of2 a b domsz) c.

(** [uniring_ppgfun_of(const Table<UniAct>&, uint)], unifile.cc:55-68. *)
Definition ppgfun_of_acts (acts : list UniAct) (domsz : nat) : list nat :=
  let domsz := if domsz =? 0 then domsz_of_acts acts else domsz in
  fold_left (put_act domsz) acts (repeat domsz (domsz * domsz)).

(** [uniring_ppgfun_of(const BitTable&, uint)], unifile.cc:70-83. *)
Definition ppgfun_of_actset (actset : list bool) (domsz : nat) : list nat :=
  let domsz := if domsz =? 0 then domsz_of_actset actset else domsz in
  fold_left (fun ppgfun i => put_act domsz ppgfun (uniact_of_id i domsz))
            (ones actset) (repeat domsz (domsz * domsz)).

(** [uniring_actions_of(const Table<PcState>&, uint)], unifile.cc:86-101. *)
Definition actions_of_ppgfun (ppgfun : list nat) (domsz : nat) : list UniAct :=
  let domsz := if domsz =? 0 then domsz_of_ppgfun ppgfun else domsz in
  flat_map (fun a =>
    flat_map (fun b =>
      let c := nth (id_of2 a b domsz) ppgfun domsz in
      if c <? domsz then [(a, b, c)] else [])
      (seq 0 domsz)) (seq 0 domsz).

(** [uniring_actions_of(const BitTable&, uint)], unifile.cc:103-114. *)
Definition actions_of_actset (actset : list bool) (domsz : nat) : list UniAct :=
  let domsz := if domsz =? 0 then domsz_of_actset actset else domsz in
  map (fun id => uniact_of_id id domsz) (ones actset).

(** [uniring_actset_of], unifile.cc:116-131. *)
Definition actset_of_ppgfun (ppgfun : list nat) (domsz : nat) : list bool :=
  let domsz := if domsz =? 0 then domsz_of_ppgfun ppgfun else domsz in
  fold_left (fun actset a =>
    fold_left (fun actset b =>
      let c := nth (id_of2 a b domsz) ppgfun domsz in
      if c <? domsz then upd actset (id_of3 a b c domsz) true else actset)
      (seq 0 domsz) actset)
    (seq 0 domsz) (repeat false (domsz * domsz * domsz)).

(** * Base64 protocol ids *)

(** Bits of an [nbits]-wide field.  The bit order inside a field is decided by
    cx/bittable (external), so it is a parameter [be] (true: most significant
    bit first) and every theorem holds for both orders. *)
Fixpoint bits_le (nbits z : nat) : list bool :=
  match nbits with
  | 0 => []
  | S k => (z mod 2 =? 1) :: bits_le k (z / 2)
  end.
Fixpoint val_le (l : list bool) : nat :=
  match l with
  | [] => 0
  | b :: l' => (if b then 1 else 0) + 2 * val_le l'
  end.
Definition field_bits (be : bool) (nbits z : nat) : list bool :=
  if be then rev (bits_le nbits z) else bits_le nbits z.
Definition field_val (be : bool) (l : list bool) : nat :=
  val_le (if be then rev l else l).

(** [BitTable::set(i, nbits, z)] (cx/bittable.hh, external). *)
Fixpoint write_bits (bt : list bool) (i : nat) (bs : list bool) : list bool :=
  match bs with
  | [] => bt
  | b :: bs' => write_bits (upd bt i b) (S i) bs'
  end.
Definition bt_set (be : bool) (bt : list bool) (i nbits z : nat) : list bool :=
  write_bits bt i (field_bits be nbits z).

(** [BitTable::get(i, nbits)] (cx/bittable.hh, external). *)
Definition bt_get (be : bool) (bt : list bool) (i nbits : nat) : nat :=
  field_val be (map (fun k => nth k bt false) (seq i nbits)).

(** [lg_luint] (cx, external) is the floor of the base-2 logarithm; the element
    size [elgsz = 1 + lg_luint(domsz)] of unifile.cc:167,203. *)
Definition elgsz_of (domsz : nat) : nat := 1 + Nat.log2 domsz.

(** unifile.cc:180-184. *)
Definition b64_char (w : nat) : ascii :=
  ascii_of_nat
    (if w <? 26 then nat_of_ascii "A" + w
     else if w <? 52 then nat_of_ascii "a" + (w - 26)
     else if w <? 62 then nat_of_ascii "0" + (w - 52)
     else if w <? 63 then nat_of_ascii "-" else nat_of_ascii "_").

(** unifile.cc:213-219. *)
Definition b64_val (c : ascii) : nat :=
  let c := nat_of_ascii c in
  if (nat_of_ascii "A" <=? c) && (c <=? nat_of_ascii "Z") then c - nat_of_ascii "A"
  else if (nat_of_ascii "a" <=? c) && (c <=? nat_of_ascii "z") then c - nat_of_ascii "a" + 26
  else if (nat_of_ascii "0" <=? c) && (c <=? nat_of_ascii "9") then c - nat_of_ascii "0" + 52
  else if nat_of_ascii "-" =? c then 62
  else if nat_of_ascii "_" =? c then 63
  else 64.

(** The write loop unifile.cc:172-176 ([skip_unless (c < domsz)]). *)
Fixpoint put_fields (be : bool) (domsz elgsz i : nat) (ppgfun : list nat) (bt : list bool)
  : list bool :=
  match ppgfun with
  | [] => bt
  | c :: rest =>
      put_fields be domsz elgsz (S i) rest
        (if c <? domsz then bt_set be bt (i * elgsz) elgsz c else bt)
  end.

(** [oput_b64_ppgfun], unifile.cc:161-188; the output is the list of characters
    written.  The loop "for (i = 0; i < btsz; i += 6)" runs ceil(btsz/6) times. *)
Definition oput_b64_ppgfun (be : bool) (ppgfun : list nat) (domsz : nat) : list ascii :=
  let domsz := if domsz =? 0 then domsz_of_ppgfun ppgfun else domsz in
  let elgsz := elgsz_of domsz in
  let btsz := domsz * domsz * elgsz in
  let bt := put_fields be domsz elgsz 0 ppgfun (repeat true (btsz + 5)) in
  map (fun k => b64_char (bt_get be bt (6 * k) 6)) (seq 0 ((btsz + 5) / 6)).

(** The size search unifile.cc:197-202.  [domsz*domsz*elgsz + 5 < 6*n]. *)
Definition b64_bits (domsz : nat) : nat := domsz * domsz * elgsz_of domsz.
Definition b64_domsz (n : nat) : nat :=
  grow_while (fun d => b64_bits d + 5) (6 * n) (6 * n) 1.

(** The character loop unifile.cc:209-224; [None] is "return 0". *)
Fixpoint get_chars (be : bool) (s : list ascii) (i : nat) (bt : list bool)
  : option (list bool) :=
  match s with
  | [] => Some bt
  | c :: s' =>
      let w := b64_val c in
      if 64 <=? w then None else get_chars be s' (S i) (bt_set be bt (6 * i) 6 w)
  end.

(** [xget_b64_ppgfun], unifile.cc:190-230, applied to the next token [s] of the
    input.  [None] is the failure result 0; [Some (r, ppgfun)] is the returned
    domain size and the filled table.  Bit writes past the end of [bt] (up to 5
    bits, see [b64_oob_bits]) are dropped here. *)
Definition xget_b64_ppgfun (be : bool) (s : list ascii) : option (nat * list nat) :=
  let n := length s in
  let domsz := b64_domsz n in
  let elgsz := elgsz_of domsz in
  if negb ((domsz * domsz * elgsz + 5) / 6 =? n) then None
  else
    match get_chars be s 0 (repeat false (domsz * domsz * elgsz)) with
    | None => None
    | Some bt =>
        Some (byte domsz,
              map (fun i => let c := byte (bt_get be bt (elgsz * i) elgsz) in
                            byte (if c <? domsz then c else domsz))
                  (seq 0 (domsz * domsz)))
    end.

(** How many bits past the end of the bit table of unifile.cc:208 the last
    [bt.set(6*i, 6, w)] of unifile.cc:223 touches, for an accepted token. *)
Definition b64_oob_bits (s : list ascii) : nat :=
  6 * length s - b64_bits (b64_domsz (length s)).
