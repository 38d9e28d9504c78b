(** What makes an action a candidate.  Steps of actions are those of C64 (NetSpec.v). *)
From Coq Require Import List Arith Bool.
From Verif Require Import FmlaModel FmlaSpec ActModel ActSpec NetModel NetSpec CandModel.
Import ListNotations.

Section Spec.
Variable S : system.
Notation N := (s_net S).
Notation ds := (vdoms (s_net S)).

(** The process that stands for its kind: the first one that accesses no variable twice, or the
    very first one if there is none. *)
Definition stands_for (k j : nat) (p : process) : Prop :=
  nth_error (pcs N) j = Some p /\ p_kind p = k /\
  ((NoDup (p_vbls p) /\
    forall i q, i < j -> nth_error (pcs N) i = Some q -> p_kind q = k -> ~ NoDup (p_vbls q)) \/
   ((forall q, In q (pcs N) -> p_kind q = k -> ~ NoDup (p_vbls q)) /\
    forall i q, i < j -> nth_error (pcs N) i = Some q -> p_kind q <> k)).

(** The formulas of the system talk about what they should. *)
Record system_ok : Prop := mkSystemOk {
  so_net : net_ok N;
  so_invariant : state_fmla ds (s_invariant S);
  so_assume : state_fmla ds (s_assume S);
  so_shadow : trans_fmla ds (s_shadow S);
  so_pc_shadow : forall p, In p (pcs N) -> trans_fmla ds (p_shadow p)
}.
(** No variable belongs to the specification only. *)
Definition no_shadow_variables : Prop := forall v, nth v (vroles N) Direct <> Shadow.

Definition legitimate (s : list nat) : Prop := holds (s_invariant S) s /\ holds (s_assume S) s.
(** The values of an action change nothing, whatever the state. *)
Definition inert (k : pcsymm) (v : list nat) : Prop :=
  forall i, i < length (accs k) -> writable (nth i (accs k) acc0) ->
    a_type (nth i (accs k) acc0) <> RandomWriteAccess /\
    (visible (nth i (accs k) acc0) -> assigned k v i = tested v i) /\
    (~ visible (nth i (accs k) acc0) -> assigned k v i = a_dom (nth i (accs k) acc0)).
(** The variables shared with the specification keep their values. *)
Definition specified_part_kept (s t : list nat) : Prop :=
  forall x, x < length ds -> nth x (vroles N) Direct <> Puppet -> nth x t 0 = nth x s 0.

Section Action.
Variables (lightweight : bool) (a : nat).
(** A transition of the action, and one of the process that stands for its kind. *)
Definition act_step (s t : list nat) : Prop := ok ds s /\ ok ds t /\ steps (action_pfmla N lightweight a) s t.
Definition rep_step (j : nat) (s t : list nat) : Prop :=
  ok ds s /\ ok ds t /\ process_step N (action_xfmlae N lightweight a) j s t.

Definition forbidden (j : nat) (p : process) : Prop := forall s t, rep_step j s t -> steps (p_forbid p) s t.
Definition not_permitted (j : nat) (p : process) : Prop :=
  (exists x i q, ok ds x /\ ok ds i /\ ok ds q /\ meaning (p_permit p) x i q) /\
  exists s t, rep_step j s t /\ ~ steps (p_permit p) s t.
Definition leaves_assumption : Prop := exists s t, act_step s t /\ holds (s_assume S) s /\ ~ holds (s_assume S) t.
Definition breaks_closure : Prop := exists s t, act_step s t /\ legitimate s /\ ~ holds (s_invariant S) t.
Definition breaks_specification : Prop :=
  exists s t, act_step s t /\ legitimate s /\ ~ steps (s_shadow S) s t /\ ~ specified_part_kept s t.
Definition starts_assumed : Prop := exists s t, act_step s t /\ holds (s_assume S) s.
(** Reasons to reject an action for good. *)
Definition bad_anywhere (j : nat) (p : process) : Prop :=
  forbidden j p \/ not_permitted j p \/
  inert (nth (p_kind p) (kinds N) pc0) (vals (act_of (kinds N) a)) \/ leaves_assumption.
Definition bad_when_legitimate : Prop :=
  s_direct_scope S = true /\ (breaks_closure \/ (s_future_closed S = false /\ breaks_specification)).
End Action.
End Spec.
