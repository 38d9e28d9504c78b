(** Model of the filter of local invariants in /repo/src/biring.cc. *)
From Coq Require Import List Arith Bool.
From Verif Require Import Radix BiringModel BiringEnumModel.
Import ListNotations.

Section Filter.
Variable domsz : nat.

(** ck_pc_config, biring.cc:130-140. *)
Definition ck_pc_config (set : bits) (a b d : nat) : bool := ck set (enum_idx_of_pc_config domsz (a, b, d)).

(** subck_match, biring.cc:843-881. *)
Definition subck_match (set : bits) : bool :=
  let vals := seq 0 domsz in
  existsb (fun a => existsb (fun b =>
    ck_pc_config set a b a && ck_pc_config set b a b &&
    ((a =? b) ||
     existsb (fun c => negb (c =? a) && ck_pc_config set b a c &&
       existsb (fun d => negb (d =? a) && ck_pc_config set a c d && ck_pc_config set c d a &&
                         ck_pc_config set d a b && ck_pc_config set d a c) vals) vals)) vals) vals.

(** The views of subck_2match, subck_3match and subck_next7, biring.cc:883-946. *)
Definition configs_2match := [(0,0,1); (1,0,1); (0,1,0); (1,0,0)].
Definition configs_3match := [(0,1,0); (0,1,2); (1,0,1); (1,2,0); (2,0,1)].
Definition configs_next7 := [(0,0,1); (0,1,0); (0,1,2); (1,0,0); (1,2,1); (2,1,0); (2,1,2)].

(** The tables made of them: [None] when a bit outside of the table is set. *)
Fixpoint set_all (cs : list (nat * nat * nat)) (bt : bits) : option bits :=
  match cs with
  | [] => Some bt
  | c :: r =>
      let i := enum_idx_of_pc_config domsz c in
      if i <? length bt then set_all r (set_bit bt i true) else None
  end.
Definition subck_configs (cs : list (nat * nat * nat)) (set : bits) : option bool :=
  match set_all cs (repeat false (domsz * domsz * domsz)) with
  | None => None
  | Some matching_set => Some (subgraph_isomorphism_ck domsz matching_set set)
  end.

(** echo_subsets, biring.cc:983-1006: the list of what is printed. *)
Fixpoint echo_loop (gt : bits -> bits -> bool) (minsz fuel : nat) (bt : bits) (idxs : list nat) (db : list bits) : option (list bits) :=
  match idxs with
  | [] => Some db
  | i :: r =>
      match biring_fixpoint domsz (set_bit bt i false) with
      | None => None
      | Some s =>
          match biring_sat_ck domsz fuel s minsz with
          | None => None
          | Some false => echo_loop gt minsz fuel bt r db
          | Some true =>
              let c := canonical_set domsz gt s in
              echo_loop gt minsz fuel bt r (if existsb (bits_eqb c) db then db else db ++ [c])
          end
      end
  end.
Definition echo_subsets (gt : bits -> bits -> bool) (minsz fuel : nat) (bt : bits) : option (list bits) :=
  echo_loop gt minsz fuel bt (members bt) [].

(** oput_biring_invariant, biring.cc:537-571.  A printed term is a list of
    comparisons; 0, 1 and 2 stand for x[i-1], x[i] and x[i+1]. *)
Definition term := list (nat * nat).
Fixpoint invariant_terms (pair print_own : bool) (idxs : list nat) (cache : list (nat * nat)) : list term :=
  match idxs with
  | [] => []
  | e :: r =>
      let '(a, b, d) := pc_config_of_enum_idx domsz e in
      if pair && existsb (fun t => (fst t =? a) && (snd t =? b)) cache then invariant_terms pair print_own r cache
      else ((0, a) :: (if print_own then [(1, b)] else []) ++ (if pair then [] else [(2, d)]))
             :: invariant_terms pair print_own r ((a, b) :: cache)
  end.
Definition oput_biring_invariant (pair print_own : bool) (legit : bits) : list term :=
  invariant_terms pair print_own (members legit) [].

(** What a printed term says of a view. *)
Definition term_holds (t : term) (v : nat * nat * nat) : bool :=
  let '(a, b, d) := v in
  forallb (fun q => nth (fst q) [a; b; d] 0 =? snd q) t.

(** The invariant of the printed specification, biring.cc:592-595: [0!=0] or one of the terms. *)
Definition spec_invariant (pair : bool) (legit : bits) (v : nat * nat * nat) : bool :=
  existsb (fun t => term_holds t v) (oput_biring_invariant pair true legit).

(** The guard of its action with one more value, biring.cc:596-606. *)
Definition spec_guard (legit : bits) (v : nat * nat * nat) : bool :=
  let '(a, b, d) := v in
  negb (a =? domsz) && negb (b =? domsz) && negb (d =? domsz) &&
  forallb (fun t => negb (term_holds t v)) (oput_biring_invariant false false legit).
End Filter.
