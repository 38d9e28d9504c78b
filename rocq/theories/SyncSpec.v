(** What a step of a synchronous system is. *)
From Coq Require Import List Arith Bool.
From Verif Require Import FmlaModel FmlaSpec ActModel ActSpec NetModel NetSpec.
Import ListNotations.

Section Spec.
Variable N : network.
Notation ds := (vdoms N).
(** The protocol: the numbers of its actions. *)
Variable acts : list nat.

(** Process [p] could go from [s] to [t] on its own. *)
Definition can_move (p : process) (s t : list nat) : Prop := exists a, In a acts /\ class_move N a p s t.
(** In a joint step from [s] to [t], [p] does what it could do on its own: its variables (and those that
    change by themselves) get the values they would get then. *)
Definition takes_part (p : process) (s t : list nat) : Prop :=
  exists t', ok ds t' /\ can_move p s t' /\ forall x, own N p x \/ fickle N x -> nth x t 0 = nth x t' 0.
Definition stands_still (p : process) (s t : list nat) : Prop := forall x, own N p x -> nth x t 0 = nth x s 0.
(** All processes act at once; [fully]: all that can act, otherwise any of them. *)
Record joint_step (fully : bool) (s t : list nat) : Prop := mkJoint {
  js_each : forall p, In p (pcs N) ->
    takes_part p s t \/ (stands_still p s t /\ (fully = true -> ~ exists t', ok ds t' /\ can_move p s t'));
  js_rest : forall x, x < length ds -> (forall p, In p (pcs N) -> ~ own N p x) -> nth x t 0 = nth x s 0;
  js_effect : exists x, x < length ds /\ ~ fickle N x /\ nth x t 0 <> nth x s 0
}.
(** Two accesses (of two processes, or of one) may write the same variable. *)
Definition written_twice : Prop :=
  exists j i j' i' p p', (j, i) <> (j', i') /\ nth_error (pcs N) j = Some p /\ nth_error (pcs N) j' = Some p' /\
    i < accesses N p /\ i' < accesses N p' /\ writable (access_at N p i) /\ writable (access_at N p' i') /\
    vbl_at p i = vbl_at p' i'.
End Spec.
