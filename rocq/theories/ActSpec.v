(** What the numbering of actions, the choice of representatives and the coexistence test mean.
    Only the description of processes ([access], [links], [pcsymm]) is shared with the model. *)
From Coq Require Import List Arith Bool.
From Verif Require Import ActModel.
Import ListNotations.

(** The number of values a guard can test for, and the number of values an assignment can name.
    A variable that is not read during synthesis has a single dummy guard value.  A written shadow
    or effect variable has one additional value, "leave it alone"; a randomised one has a single
    dummy value. *)
Definition guard_values (a : access) : nat :=
  match a_role a, a_type a with
  | Shadow, _ => 1
  | _, (YieldAccess | EffectAccess) => 1
  | _, _ => a_dom a
  end.
Definition assign_values (a : access) : nat :=
  match a_type a, a_role a with
  | RandomWriteAccess, _ => 1
  | EffectAccess, _ => a_dom a + 1
  | _, Shadow => a_dom a + 1
  | _, _ => a_dom a
  end.
Definition writable (a : access) : Prop :=
  a_type a = WriteAccess \/ a_type a = YieldAccess \/ a_type a = EffectAccess
  \/ a_type a = RandomWriteAccess.

(** How many of the accesses before position [i] are writable: the place of its assignment. *)
Definition place (pc : pcsymm) (i : nat) : nat :=
  length (filter (fun a => match a_type a with
                           | WriteAccess | YieldAccess | EffectAccess | RandomWriteAccess => true
                           | _ => false end) (firstn i (accs pc))).
(** The value the action tests for at access [i], and the one it assigns to it. *)
Definition tested (v : list nat) (i : nat) : nat := nth i v 0.
Definition assigned (pc : pcsymm) (v : list nat) (i : nat) : nat :=
  nth (length (accs pc) + place pc i) v 0.

(** A value list that describes an action of this kind of process. *)
Definition action_values (pc : pcsymm) (v : list nat) : Prop :=
  length v = length (accs pc) + place pc (length (accs pc)) /\
  (forall i, i < length (accs pc) -> tested v i < guard_values (nth i (accs pc) acc0)) /\
  (forall i, i < length (accs pc) -> writable (nth i (accs pc) acc0) ->
     assigned pc v i < assign_values (nth i (accs pc) acc0)).

(** All variables have non-empty domains. *)
Definition nonempty_domains (pc : pcsymm) : Prop :=
  forall a, In a (accs pc) -> a_dom a <> 0.

(** The number of actions of a kind of process. *)
Definition product (l : list nat) : nat := fold_right Nat.mul 1 l.
Definition actions_of (pc : pcsymm) : nat :=
  product (map guard_values (accs pc)) *
  product (map assign_values (filter (fun a => match a_type a with
     | WriteAccess | YieldAccess | EffectAccess | RandomWriteAccess => true | _ => false end) (accs pc))).
Definition actions_in (net : list pcsymm) : nat := fold_right Nat.add 0 (map actions_of net).

(** Position of variable [r] on link [l]. *)
Definition pos (k : links) (r l : nat) : nat := nth l (nth r (rows k) []) 0.

(** Where the positions of a symmetric block may be: every variable of the block appears once on
    every link with the same kind of access, positions are never shared, links are listed in
    increasing order, and so are the variables on each link. *)
Record laid_out (pc : pcsymm) : Prop := {
  lo_nlinks : forall k, In k (symms pc) -> 1 <= nlinks k;
  lo_length : forall k row, In k (symms pc) -> In row (rows k) -> length row = nlinks k;
  lo_range : forall k row p, In k (symms pc) -> In row (rows k) -> In p row ->
    p < length (accs pc);
  lo_same : forall k row p q, In k (symms pc) -> In row (rows k) -> In p row -> In q row ->
    nth p (accs pc) acc0 = nth q (accs pc) acc0;
  lo_disjoint : NoDup (concat (concat (map rows (symms pc))));
  lo_link_order : forall k r l, In k (symms pc) -> r < length (rows k) -> S l < nlinks k ->
    pos k r l < pos k r (S l);
  lo_row_order : forall k r r' l, In k (symms pc) -> r < r' -> r' < length (rows k) ->
    l < nlinks k -> pos k r l < pos k r' l
}.

(** A renaming of access positions that permutes the links of every symmetric block as wholes and
    keeps all other positions. *)
Definition relinking (pc : pcsymm) (s : nat -> nat) : Prop :=
  (forall i, (forall k row, In k (symms pc) -> In row (rows k) -> ~ In i row) -> s i = i) /\
  (forall k, In k (symms pc) -> exists pi : nat -> nat,
     (forall l, l < nlinks k -> pi l < nlinks k) /\
     (forall l l', l < nlinks k -> l' < nlinks k -> pi l = pi l' -> l = l') /\
     (forall r l, r < length (rows k) -> l < nlinks k -> s (pos k r l) = pos k r (pi l))).

(** [b] is [a] with links renamed: it tests and assigns at each access what [a] does at the
    renamed one. *)
Definition relinked (pc : pcsymm) (a b : list nat) : Prop :=
  exists s, relinking pc s /\
    (forall i, i < length (accs pc) -> tested b i = tested a (s i)) /\
    (forall i, i < length (accs pc) -> writable (nth i (accs pc) acc0) ->
       assigned pc b i = assigned pc a (s i)).

(** Two actions of a network, given by their numbers, that differ only in the names of links. *)
Definition same_action_class (net : list pcsymm) (i j : nat) : Prop :=
  act_pc (act_of net i) = act_pc (act_of net j) /\
  relinked (nth (act_pc (act_of net i)) net pc0) (vals (act_of net i)) (vals (act_of net j)).

(** The kinds of access the synthesised process can see. *)
Definition visible (a : access) : Prop :=
  a_role a <> Shadow /\ a_type a <> YieldAccess /\ a_type a <> EffectAccess.

(** Valuations of the accesses of one process.  The action [v] can be executed in [x] when the
    visible values are those it tests for; executing it sets the written visible values and
    leaves the unwritten ones alone. *)
Definition can_act (pc : pcsymm) (v : list nat) (x : nat -> nat) : Prop :=
  forall i, i < length (accs pc) -> visible (nth i (accs pc) acc0) -> x i = tested v i.
Definition acts (pc : pcsymm) (v : list nat) (x y : nat -> nat) : Prop :=
  can_act pc v x /\
  (forall i, i < length (accs pc) -> visible (nth i (accs pc) acc0) ->
     (writable (nth i (accs pc) acc0) -> y i = assigned pc v i) /\
     (~ writable (nth i (accs pc) acc0) -> y i = x i)).
(** It changes nothing the process can see. *)
Definition idle (pc : pcsymm) (v : list nat) : Prop :=
  forall i, i < length (accs pc) -> visible (nth i (accs pc) acc0) ->
    writable (nth i (accs pc) acc0) -> assigned pc v i = tested v i.
Definition no_randomness (pc : pcsymm) : Prop :=
  forall a, In a (accs pc) -> a_type a <> RandomReadAccess /\ a_type a <> RandomWriteAccess.
Definition everything_visible (pc : pcsymm) : Prop :=
  forall a, In a (accs pc) -> writable a -> visible a.
