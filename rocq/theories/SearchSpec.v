(** What a synthesised protocol has to satisfy, in terms of executions
    (ReachSpec.v) of the instances.  Of the model only the description of an
    instance ([inst] of SearchModel.v: its states, specification and the
    transitions of its actions) is used. *)
From Coq Require Import List Arith Bool.
From Verif Require Import ReachSpec StabModel ConflictSpec SearchModel.
Import ListNotations.

Section OneInstance.
Variable I : inst.

(** The transitions of a set of actions under interleaving. *)
Definition moves (A : list nat) (x y : St I) : Prop := exists a, In a A /\ axn I a x y = true.

Definition assumed (x : St I) : Prop := closed_assume _ (sysm I) x = true.
Definition legit (x : St I) : Prop := invariant _ (sysm I) x = true /\ assumed x.
Definition specified (x y : St I) : Prop := shadow_xn _ (sysm I) x y = true.

(** The protocol made of the actions [A] stabilises to the legitimate states and
    does there what is asked of it. *)
Record stabilises (A : list nat) : Prop := mkStabilises {
  st_legit : exists x, legit x;
  st_no_self_loop : forall x, assumed x -> ~ moves A x x;
  st_assumed_closed : closed _ (moves A) assumed;
  st_legit_closed : closed _ (moves A) legit;
  st_converges : converges _ (moves A) assumed legit;
  st_specified : style _ (sysm I) <> FutureAndClosed ->
    forall x y, legit x -> (moves A x y <-> specified x y);
  st_active : behav _ (sysm I) = FutureActiveShadow \/ style _ (sysm I) = FutureAndActiveShadow ->
    forall x, legit x -> exists y, moves A x y;
  st_silent : behav _ (sysm I) = FutureSilent -> forall x, assumed x -> ~ on_cycle _ (moves A) x
}.

(** The instance is described properly: all states are listed, a formula that
    has a state yields one, and agreeing on the shadow variables is an
    equivalence. *)
Record proper : Prop := mkProper {
  pr_all : forall s : St I, In s (univ I);
  pr_choose : forall p : St I -> bool, (exists s, p s = true) -> p (choose_st I p) = true;
  pr_refl : forall x, same_shadow _ (sysm I) x x = true;
  pr_sym : forall x y, same_shadow _ (sysm I) x y = true -> same_shadow _ (sysm I) y x = true;
  pr_trans : forall x y z, same_shadow _ (sysm I) x y = true -> same_shadow _ (sysm I) y z = true ->
    same_shadow _ (sysm I) x z = true
}.

(** No shadow variables, no randomisation, interleaving, no limit on layers, and
    the invariant is given directly. *)
Record plain : Prop := mkPlain {
  pl_puppet : shadow_puppet _ (sysm I) = false;
  pl_scope : scope _ (sysm I) <> FutureInvariant;
  pl_prob : probabilistic _ (sysm I) = false;
  pl_async : synchronous (sopt I) = false;
  pl_layers : max_nlayers (sopt I) = 0
}.
End OneInstance.

(** [A] is a solution that the search is asked to find: it keeps the given
    actions, adds only candidates, contains no known conflict, its actions coexist
    and it stabilises every instance. *)
Record solution (insts : list inst) (given : list nat) (conflicts : list (list nat))
    (clash : nat -> nat -> bool) (A : list nat) : Prop := mkSolution {
  so_given : incl given A;
  so_cands : forall I, In I insts -> forall a, In a A -> In a given \/ In a (candidates0 I);
  so_conflicts : ~ rejected conflicts A;
  so_coexist : forall a b, In a A -> In b A -> a <> b -> ~ In b given -> clash a b = false;
  so_stab : forall I, In I insts -> stabilises I A
}.

(** ** When the search can be trusted not to overlook a solution *)

(** An action that does nothing wrong outside the legitimate states: no
    self-loop and no way out of the assumed states. *)
Record harmless (I : inst) (a : nat) : Prop := mkHarmless {
  hl_loop : forall x, assumed I x -> axn I a x x = false;
  hl_assumed : forall x y, assumed I x -> axn I a x y = true -> assumed I y
}.
(** ... nor in them: it stays there and does only what is specified. *)
Record obedient (I : inst) (a : nat) : Prop := mkObedient {
  ob_legit : forall x y, legit I x -> axn I a x y = true -> legit I y;
  ob_spec : style _ (sysm I) <> FutureAndClosed -> forall x y, legit I x -> axn I a x y = true -> specified I x y
}.

(** The instance, the given actions and the actions that may be used, as the
    candidate filter (xnsys.cc:1056-1246) leaves them: candidates are listed once
    and harmless, obedient too if the instance is lightweight; nothing but the
    invariant and what the given actions do is asked of the legitimate states. *)
Record searchable (I : inst) (given : list nat) (usable : nat -> Prop) : Prop := mkSearchable {
  se_proper : proper I;
  se_plain : plain I;
  se_nodup : NoDup (candidates0 I);
  se_behav : behav _ (sysm I) <> FutureActiveShadow;
  se_style : style _ (sysm I) <> FutureAndActiveShadow;
  se_drag : forall a, drags_shadow I a = false;
  se_given : forall x y, legit I x -> specified I x y -> moves I given x y;
  se_harmless : forall a, usable a -> In a given \/ harmless I a;
  se_obedient : light I = true ->
    behav _ (sysm I) <> FutureSilent /\ forall a, usable a -> In a given \/ obedient I a
}.
