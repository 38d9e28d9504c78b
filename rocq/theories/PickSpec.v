(** What the choice of an action can rely on, and what it has to do. *)
From Coq Require Import List Arith.
From Verif Require Import ReachModel ReachSpec StabModel RankModel RankSpec ConflictModel ActModel ActSpec SearchModel.
Import ListNotations.

(** Action [a] is enabled in [s]. *)
Definition enabled_in (I : inst) (a : nat) (s : St I) : Prop := exists t, axn I a s t = true.
(** An unresolved state of a partial solution that is not lightweight *)
Definition unresolved (p : part) (s : St (projT1 p)) : Prop := p_no_partial p = false /\ dead (projT2 p) s = true.
(** In [s], the candidates of [p] that are enabled are those of [l]. *)
Definition choices (p : part) (s : St (projT1 p)) (l : list nat) : Prop :=
  NoDup l /\ forall a, In a l <-> In a (p_cands p) /\ enabled_in (projT1 p) a s.

(** The partial solution lists its candidates once and ranks its unresolved states as C41 says. *)
Record ranked (p : part) : Prop := mkRanked {
  rd_all : forall s : St (projT1 p), In s (univ (projT1 p));
  rd_nodup : NoDup (p_cands p);
  rd_ranks : p_no_partial p = false ->
    ranking (St (projT1 p)) (fun a => sources _ (dec (projT1 p)) (univ (projT1 p)) (axn (projT1 p) a)) (fun s => dead (projT2 p) s = true)
      (p_cands p) (ranks (projT2 p))
}.

(** Candidate [a] of [p] is enabled in an unresolved state of [p] with [n] enabled candidates. *)
Definition resolves (p : part) (n a : nat) : Prop :=
  In a (p_cands p) /\ exists s l, unresolved p s /\ choices p s l /\ length l = n /\ enabled_in (projT1 p) a s.
(** No unresolved state of [ps] that some candidate resolves has fewer enabled candidates than [n]. *)
Definition fewest (ps : list part) (n : nat) : Prop := forall p m b, In p ps -> resolves p m b -> n <= m.

(** The partial solutions that a search may work on: those of the start, and what becomes of them when actions are added
    and candidates dropped. *)
Inductive visited (place : fset -> list fset -> nat) (clash : nat -> nat -> bool) (rounds : nat) (base : list part) : list part -> Prop :=
| visited_base : visited place clash rounds base base
| visited_revise : forall f ps adds dels f' ps', visited place clash rounds base ps ->
    revise place clash rounds f ps adds dels = (f', Good ps') -> visited place clash rounds base ps'.

(** States from which the transitions [lo p] lead to [hinv p]: the invariant. *)
Definition leads_back (p : part) (s : St (projT1 p)) : Prop :=
  exists t, hinv (projT2 p) t = true /\ reaches _ (fun x y => lo (projT2 p) x y = true) s t.
(** The unresolved states that [a] resolves have these numbers of enabled candidates. *)
Definition resolved_ranks (p : part) (a : nat) (l : list nat) : Prop := NoDup l /\ forall n, In n l <-> resolves p n a.
(** What remains once [a] is added: number of choices and choice, for the states that [a] does not resolve *)
Definition remaining (p : part) (a : nat) (l : list (nat * nat)) : Prop :=
  NoDup l /\ forall n b, In (n, b) l <->
    In b (p_cands p) /\ exists s c, unresolved p s /\ ~ enabled_in (projT1 p) a s /\ choices p s c /\ length c = n /\ enabled_in (projT1 p) b s.

(** Two actions of the same kind of process that test and assign the same values, apart from the guards of randomised variables *)
Definition same_but_random (net : list pcsymm) (i j : nat) : Prop :=
  let a := act_of net i in let b := act_of net j in let k := nth (act_pc a) net pc0 in
  act_pc a = act_pc b /\
  (forall x, x < length (accs k) -> a_type (nth x (accs k) acc0) <> RandomReadAccess -> a_type (nth x (accs k) acc0) <> RandomWriteAccess ->
     tested (vals a) x = tested (vals b) x) /\
  (forall x, x < length (accs k) -> writable (nth x (accs k) acc0) -> assigned k (vals a) x = assigned k (vals b) x).
