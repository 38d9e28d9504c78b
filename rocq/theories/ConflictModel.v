(** Model of [ConflictFamily], /repo/src/conflictfamily.{hh,cc}.

    [FlatSet<uint>] (external cx library, cx/set.hh) is a strictly increasing
    table; it is modelled by a list of naturals, built by [fs_of].
    [Set< FlatSet<uint> >] (external; an ordered tree) is modelled by a list in
    iteration order.  Where a new element lands in that order depends on
    cx's comparison, which is not in /repo: the model takes the position as a
    parameter [place] and every theorem holds for all of them. *)
From Coq Require Import List Arith Bool.
From Verif Require Import ConflictSpec.
Import ListNotations.

Definition fset := list nat.

Definition memb (x : nat) (s : list nat) : bool := existsb (Nat.eqb x) s.

(** cx FlatSet(const Table<T>&), FlatSet(const T*, n): sort and drop duplicates. *)
Fixpoint fs_insert (x : nat) (s : fset) : fset :=
  match s with
  | [] => [x]
  | y :: s' => if x <? y then x :: s else if x =? y then s else y :: fs_insert x s'
  end.
Definition fs_of (l : list nat) : fset := fold_right fs_insert [] l.

(** cx FlatSet::subseteq_ck. *)
Definition subseteq (a b : fset) : bool := forallb (fun x => memb x b) a.
(** cx FlatSet::operator==. *)
Fixpoint fs_eqb (a b : fset) : bool :=
  match a, b with
  | [], [] => true
  | x :: a', y :: b' => (x =? y) && fs_eqb a' b'
  | _, _ => false
  end.
(** cx FlatSet::subseteq_fuzz_ck(&diff, b, limit): collects the elements of [a]
    missing from [b] and says whether there are at most [limit] of them. *)
Definition fuzz_diff (a b : fset) : list nat := filter (fun x => negb (memb x b)) a.
Definition subseteq_fuzz (a b : fset) (limit : nat) : bool := length (fuzz_diff a b) <=? limit.

(** conflictfamily.hh:11-18.  [news] is in push order. *)
Record family := mkFamily {
  sets : list fset;        (* conflict_sets *)
  news : list fset;        (* new_conflict_sets *)
  recording : bool;        (* record_new_conflict_sets *)
  impossible : list nat    (* impossible_set *)
}.
(** conflictfamily.hh:22-24. *)
Definition empty_family : family := mkFamily [] [] false [].

Definition set_mem (b : fset) (ss : list fset) : bool := existsb (fs_eqb b) ss.
(** cx Set::operator<<, at an iteration position chosen by the tree order. *)
Definition set_add (place : fset -> list fset -> nat) (ss : list fset) (b : fset) : list fset :=
  if set_mem b ss then ss else firstn (place b ss) ss ++ b :: skipn (place b ss) ss.
(** cx Set::operator-. *)
Definition set_diff (a b : list fset) : list fset := filter (fun s => negb (set_mem s b)) a.
Definition uint_add (s : list nat) (x : nat) : list nat := if memb x s then s else x :: s.

(** conflictfamily.cc:14-21. *)
Definition cf_minus (f g : family) : family :=
  mkFamily (set_diff (sets f) (sets g)) [] false
           (filter (fun x => negb (memb x (impossible g))) (impossible f)).

(** conflictfamily.cc:23-37. *)
Fixpoint conflict_loop (ss : list fset) (t : fset) : bool :=
  match ss with
  | [] => false
  | c :: ss' => if subseteq c t then true else conflict_loop ss' t
  end.
Definition conflict_ck (f : family) (t : fset) : bool := conflict_loop (sets f) t.

(** conflictfamily.cc:39-50. *)
Fixpoint exact_loop (ss : list fset) (t : fset) : bool :=
  match ss with
  | [] => false
  | c :: ss' => if fs_eqb c t then true else exact_loop ss' t
  end.
Definition exact_conflict_ck (f : family) (t : fset) : bool := exact_loop (sets f) t.

(** conflictfamily.cc:56-72: the scan of [add_conflict].  Returns the sets left
    (deletions made before an early return stay made) and whether it returned. *)
Fixpoint add_scan (ss : list fset) (b : fset) : list fset * bool :=
  match ss with
  | [] => ([], false)
  | a :: ss' =>
      if subseteq a b then (a :: ss', true)
      else
        let '(rest, returned) := add_scan ss' b in
        if subseteq b a then (rest, returned) else (a :: rest, returned)
  end.

(** conflictfamily.cc:52-81. *)
Definition add_conflict (place : fset -> list fset -> nat) (f : family) (b : fset) : family :=
  let '(ss, returned) := add_scan (sets f) b in
  if returned then mkFamily ss (news f) (recording f) (impossible f)
  else
    mkFamily (set_add place ss b)
             (if recording f then news f ++ [b] else news f)
             (recording f)
             (if length b =? 1 then uint_add (impossible f) (nth 0 b 0) else impossible f).

(** conflictfamily.cc:97-101. *)
Definition add_impossible place (f : family) (e : nat) : family := add_conflict place f (fs_of [e]).

(** conflictfamily.cc:103-111. *)
Definition add_family place (f g : family) : family :=
  fold_left (add_conflict place) (set_diff (sets g) (sets f)) f.

(** conflictfamily.cc:113-122.  [None]: the table is too short (a read past its
    end in the C++). *)
Fixpoint add_flat place (fuel : nat) (f : family) (flat : list nat) : option family :=
  match flat with
  | [] => Some f
  | n :: flat' =>
      match fuel with
      | 0 => None
      | S fuel' =>
          if n <=? length flat'
          then add_flat place fuel' (add_conflict place f (fs_of (firstn n flat'))) (skipn n flat')
          else None
      end
  end.
Definition add_flat_conflicts place (f : family) (flat : list nat) : option family :=
  add_flat place (length flat) f flat.

(** conflictfamily.cc:124-137. *)
Definition trim (f : family) (max_sz : nat) : family :=
  if max_sz =? 0 then f
  else
    let dels := filter (fun s => max_sz <? length s) (sets f) in
    mkFamily (set_diff (sets f) dels) (news f) (recording f) (impossible f).

(** conflictfamily.cc:139-150. *)
Fixpoint bump (l : list nat) (i : nat) : list nat :=
  match l, i with
  | [], _ => []
  | x :: l', 0 => S x :: l'
  | x :: l', S i' => x :: bump l' i'
  end.
Definition conflict_sizes (f : family) : list nat :=
  fold_left (fun a s =>
    let sz := length s in
    let a := if length a <=? sz then a ++ repeat 0 (1 + sz - length a) else a in
    bump a sz) (sets f) [].

(** conflictfamily.cc:163-176: the merge walk over one stored set. *)
Fixpoint superset_walk (t c count : fset) (membs : list nat) : list nat :=
  match c with
  | [] => membs
  | elem :: c' =>
      let miss := match t with [] => true | x :: _ => negb (x =? elem) end in
      if miss
      then superset_walk t c' count (if memb elem count then uint_add membs elem else membs)
      else superset_walk (tl t) c' count membs
  end.
(** conflictfamily.cc:152-179. *)
Definition superset_membs (f : family) (t count : fset) : fset :=
  fs_of (fold_left (fun membs c =>
    if subseteq t c then superset_walk t c count membs else membs) (sets f) []).

(** conflictfamily.cc:181-197; the returned flag and the accumulated members. *)
Fixpoint conflict_membs_loop (ss : list fset) (t count : fset) (membs : list nat) : bool * list nat :=
  match ss with
  | [] => (true, membs)
  | c :: ss' =>
      if subseteq_fuzz c t 1 then
        match fuzz_diff c t with
        | [] => (false, membs)
        | d :: _ => conflict_membs_loop ss' t count (if memb d count then uint_add membs d else membs)
        end
      else conflict_membs_loop ss' t count membs
  end.
Definition conflict_membs (f : family) (t count : fset) (membs : list nat) : bool * list nat :=
  conflict_membs_loop (sets f) t count membs.

(** conflictfamily.cc:199-207 and 209-221. *)
Definition all_conflicts (f : family) : list fset := sets f.
Definition flatten (ss : list fset) : list nat := flat_map (fun s => length s :: s) ss.
Definition all_conflicts_flat (f : family) : list nat := flatten (sets f).

(** conflictfamily.cc:223-238 (the flat variant 240-258 is its [flatten]). *)
Definition flush_new (f : family) : list fset * family :=
  if recording f
  then (rev (news f), mkFamily (sets f) [] true (impossible f))
  else (sets f, mkFamily (sets f) (news f) true (impossible f)).
Definition flush_new_flat (f : family) : list nat * family :=
  let '(ss, f') := flush_new f in (flatten ss, f').
(** conflictfamily.cc:260-265. *)
Definition flush_drop (f : family) : family := mkFamily (sets f) [] true (impossible f).

(** conflictfamily.cc:267-274. *)
Definition clear (f : family) : family := empty_family.

(** conflictfamily.cc:276-284. *)
Definition sat_ck (f : family) : bool :=
  match sets f with
  | [e] => negb (length e =? 0)
  | _ => true
  end.

(** conflictfamily.cc:297-309, as the sequence of numbers written. *)
Definition oput (f : family) : list nat := length (sets f) :: flatten (sets f).

(** conflictfamily.cc:311-335 on a sequence of readable numbers; reading past the
    end leaves the family built so far (line 329) -- with a zero size when the
    size itself cannot be read (lines 323-325). *)
Fixpoint xget_loop place (n : nat) (f : family) (toks : list nat) : family :=
  match n with
  | 0 => f
  | S n' =>
      let sz := nth 0 toks 0 in
      let toks' := tl toks in
      if sz <=? length toks' then
        let c := firstn sz toks' in
        xget_loop place n'
          (mkFamily (set_add place (sets f) (fs_of c)) (news f) (recording f)
             (if length c =? 1 then uint_add (impossible f) (nth 0 c 0) else impossible f))
          (skipn sz toks')
      else f
  end.
Definition xget place (f : family) (toks : list nat) : family :=
  xget_loop place (nth 0 toks 0)
    (mkFamily [] (news f) (recording f) []) (tl toks).

(** One process sending its new conflicts to another as it finds them:
    /repo/src/main-mpi.cc:74-77 ([flush_new_conflicts(msg)], nothing sent when
    the table is empty) and :36 ([add_conflicts(msg)]).  Message transport (cx
    MpiDissem, external) is taken as immediate and lossless. *)
Fixpoint exchange place (evs : list event) (sender receiver : family) : option (family * family) :=
  match evs with
  | [] => Some (sender, receiver)
  | Declare b :: evs' => exchange place evs' (add_conflict place sender b) receiver
  | Exchange :: evs' =>
      let '(msg, sender') := flush_new_flat sender in
      if length msg =? 0 then exchange place evs' sender' receiver
      else
        match add_flat_conflicts place receiver msg with
        | None => None
        | Some receiver' => exchange place evs' sender' receiver'
        end
  end.

(** The families a program can build with the operations above (added sets are
    FlatSets, hence increasing). *)
Inductive built (place : fset -> list fset -> nat) : family -> Prop :=
| built_empty : built place empty_family
| built_add : forall f b, built place f -> set_ok b -> built place (add_conflict place f b)
| built_impossible : forall f e, built place f -> built place (add_impossible place f e)
| built_merge : forall f g, built place f -> built place g -> built place (add_family place f g)
| built_flat : forall f l g, built place f -> add_flat_conflicts place f l = Some g -> built place g
| built_trim : forall f n, built place f -> built place (trim f n)
| built_flush : forall f, built place f -> built place (snd (flush_new f))
| built_drop : forall f, built place f -> built place (flush_drop f).

