(** Vocabulary for properties of unidirectional-ring protocols.  Independent of
    the model: a protocol is just a set of local actions (a,b,c) meaning "when
    the predecessor has value a and I have value b, I may change to c". *)
From Coq Require Import List Arith.
Import ListNotations.

Definition protocol := nat -> nat -> nat -> Prop.

(** The protocol described by a table of M*M entries: entry (a*M+b) is the new
    value, an entry M means no action. *)
Definition table_protocol (M : nat) (t : list nat) : protocol :=
  fun a b c => a < M /\ b < M /\ c < M /\ nth_error t (a * M + b) = Some c.

(** A well-formed table. *)
Definition table_ok (M : nat) (t : list nat) : Prop :=
  length t = M * M /\ Forall (fun c => c <= M) t.

(** A ring state is the list of the processes' values; process p reads the
    value of process p-1 (cyclically). *)
Definition pred_of (N p : nat) : nat := if p =? 0 then N - 1 else p - 1.

Definition ring_step (P : protocol) (s s' : list nat) : Prop :=
  exists p a b c,
    nth_error s (pred_of (length s) p) = Some a /\
    nth_error s p = Some b /\
    P a b c /\
    s' = firstn p s ++ c :: skipn (S p) s.

Definition in_domain (M : nat) (s : list nat) : Prop := Forall (fun v => v < M) s.

(** An infinite execution on a ring of N processes over the domain M. *)
Definition livelock_on (P : protocol) (M N : nat) : Prop :=
  exists e : nat -> list nat,
    length (e 0) = N /\ in_domain M (e 0) /\
    forall k, ring_step P (e k) (e (S k)).

Definition silent (P : protocol) (s : list nat) : Prop :=
  forall s', ~ ring_step P s s'.

(** A process that has acted is disabled until its predecessor acts. *)
Definition self_disabling (P : protocol) : Prop :=
  forall a b c d, P a b c -> ~ P a c d.

Definition deterministic (P : protocol) : Prop :=
  forall a b c d, P a b c -> P a b d -> c = d.

(** Executions of finite length. *)
Inductive ring_run (P : protocol) : nat -> list nat -> list nat -> Prop :=
| run_nil : forall s, ring_run P 0 s s
| run_cons : forall n s s1 s2,
    ring_step P s s1 -> ring_run P n s1 s2 -> ring_run P (S n) s s2.
