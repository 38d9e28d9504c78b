(** What the generated UDP code is meant to do.  Of the model only the descriptions
    of networks, processes and accesses are used, the meaning of actions
    (NetSpec.v), and the network of processes of UdpSpec.v. *)
From Coq Require Import NArith.
From Verif Require Import UdpModel UdpSpec.
From Coq Require Import List Arith Bool.
From Verif Require Import FmlaModel FmlaSpec ActModel ActSpec NetModel NetSpec.
Import ListNotations.

(** The accesses the code of a process sees: all but those to shadow variables.
    Cell j of its array x stands for the j-th of them. *)
Definition shown (k : pcsymm) : list nat :=
  filter (fun i => match a_role (nth i (accs k) acc0) with Shadow => false | _ => true end) (seq 0 (length (accs k))).
Definition sizes (k : pcsymm) : list nat := map (fun i => a_dom (nth i (accs k) acc0)) (shown k).
Definition fits (k : pcsymm) (x : list nat) : Prop := Forall2 lt x (sizes k).

Section Net.
Variable N : network.
(** The variables in these cells, and the cells that are written. *)
Definition screen (p : process) : list nat := map (vbl_at p) (shown (its_kind N p)).
Definition writes_cell (p : process) (j : nat) : Prop := writable (access_at N p (nth j (shown (its_kind N p)) 0)).
(** Process i has variable v in cell j. *)
Definition cell (i j v : nat) : Prop := exists p, nth_error (pcs N) i = Some p /\ nth_error (screen p) j = Some v.
Definition writes_var (i v : nat) : Prop :=
  exists p j, nth_error (pcs N) i = Some p /\ nth_error (screen p) j = Some v /\ writes_cell p j.

(** No process has a variable twice, no variable is written by two processes. *)
Definition separate : Prop := forall p, In p (pcs N) -> NoDup (screen p).
Definition sole_writer : Prop := forall i i' v, writes_var i v -> writes_var i' v -> i = i'.

(** The cells of process p in state s, and after a step from s to t: only the
    variables the process writes are taken from t. *)
Definition cells (p : process) (s : list nat) : list nat := map (fun i => value s p i) (shown (its_kind N p)).
Definition cells_after (p : process) (s t : list nat) : list nat :=
  map (fun i => value (match a_type (access_at N p i) with
                       | WriteAccess | YieldAccess | EffectAccess | RandomWriteAccess => t | _ => s end) p i)
      (shown (its_kind N p)).
(** With one of the actions the process at position j, seeing x, makes it y. *)
Definition can_do (lightweight : bool) (actions : list nat) (j : nat) (p : process) (x y : list nat) : Prop :=
  exists a s t, In a actions /\ act_pc (act_of (kinds N) a) = p_kind p /\
    ok (vdoms N) s /\ ok (vdoms N) t /\
    process_step N (action_xfmlae N lightweight a) j s t /\ cells p s = x /\ cells_after p s t = y.
(** x' is x except in the cells of variables that are read at random. *)
Definition redrawn (p : process) (x x' : list nat) : Prop :=
  fits (its_kind N p) x' /\
  forall j, j < length (screen p) -> ~ fickle N (nth j (screen p) 0) -> nth j x' 0 = nth j x 0.
(** What action_assign may make of x: after the random variables are drawn, a
    possible change is made; if only invisible changes are possible the drawn values
    stay; if nothing is possible they are taken back. *)
Definition action_result (lightweight : bool) (actions : list nat) (j : nat) (p : process) (x y : list nat) : Prop :=
  exists x', redrawn p x x' /\
    ((can_do lightweight actions j p x' y /\ y <> x') \/
     (can_do lightweight actions j p x' y /\ y = x' /\ forall z, can_do lightweight actions j p x' z -> z = x') \/
     (y = x /\ forall z, ~ can_do lightweight actions j p x' z)).

(** The assumption of process p only depends on variables in its cells. *)
Definition visible_assume (p : process) : Prop :=
  forall s t, ok (vdoms N) s -> ok (vdoms N) t -> cells p s = cells p t -> (holds (p_assume p) s <-> holds (p_assume p) t).
Definition assumed (p : process) (x : list nat) : Prop :=
  exists s, ok (vdoms N) s /\ cells p s = x /\ holds (p_assume p) s.
End Net.

(** [T] is the network of the actions, [O] the one code is generated for.  They have the same
    kinds of processes, processes of one kind are listed together, and every kind that [O]
    uses has in [T] a process that accesses no variable twice. *)
Record same_protocol (T O : network) : Prop := mkSame {
  sp_kinds : kinds T = kinds O;
  sp_order : forall i i' p p', i < i' -> nth_error (pcs O) i = Some p -> nth_error (pcs O) i' = Some p' -> p_kind p <= p_kind p';
  sp_used : forall p, In p (pcs O) -> exists q, In q (pcs T) /\ p_kind q = p_kind p /\ NoDup (p_vbls q) }.

(** Numbers of actions that stand for themselves. *)
Definition proper_actions (T : network) (actions : list nat) : Prop :=
  forall a, In a actions -> a < actions_in (kinds T) /\ representative_action_index (kinds T) a = Some a.

(** The process of [T] the code of a kind is made from: the first of that kind that
    accesses no variable twice, or if there is none the first of that kind. *)
Definition pattern (T : network) (k j : nat) (q : process) : Prop :=
  nth_error (pcs T) j = Some q /\ p_kind q = k /\
  ((NoDup (p_vbls q) /\
    forall j' q', j' < j -> nth_error (pcs T) j' = Some q' -> p_kind q' = k -> ~ NoDup (p_vbls q')) \/
   ((forall q', In q' (pcs T) -> p_kind q' = k -> ~ NoDup (p_vbls q')) /\
    forall j' q', j' < j -> nth_error (pcs T) j' = Some q' -> p_kind q' <> k)).

(** w and u differ at most in variables that process q accesses but cannot write. *)
Definition same_but_given (T : network) (q : process) (w u : list nat) : Prop :=
  forall v, v < length (vdoms T) ->
  ~ (exists i, i < accesses T q /\ ~ writable (access_at T q i) /\ vbl_at q i = v) -> nth v w 0 = nth v u 0.

(** Kinds without shadow variables and without randomness. *)
Definition plain_kinds (ks : list pcsymm) : Prop :=
  forall k a, In k ks -> In a (accs k) -> a_role a <> Shadow /\ a_type a <> RandomReadAccess /\ a_type a <> RandomWriteAccess.
