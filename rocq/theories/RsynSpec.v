(** Vocabulary for the ring synthesis program. *)
From Coq Require Import String List Arith Bool ZArith.
From Verif Require Import FinLib FmlaModel FmlaSpec ActModel NetModel IntModel ExprModel ExprSpec CmdModel CmdSpec DeclModel DeclSpec UniSpec TileSpec SynthSpec.
Import ListNotations.
Local Open Scope list_scope.
Local Open Scope nat_scope.

(** The file has one kind of processes, [h] with the statements [body]; at its beginning [G] is in scope. *)
Definition only_kind (G0 : scope) (l : list item) (G : scope) (h : pc_head) (body : list stmt) : Prop :=
  exists l1 l2, l = map Outside l1 ++ Inside h body :: map Outside l2 /\ G = fold_left after_outside l1 G0.
(** The process [m] finds [s] legitimate. *)
Definition content (h : pc_head) (G : scope) (body : list stmt) (m : membr) (s : list nat) : Prop :=
  every_stmt (demanded (indexed h m) s) (entering G h m) (indexed h m) body.
(** [s] is legitimate by the file; the file lets nobody move. *)
Definition legitimate (G0 : scope) (l : list item) (s : list nat) : Prop := every_item (in_all demanded s) G0 l.
Definition no_actions (ds : list nat) (G0 : scope) (l : list item) : Prop :=
  forall s t, ok ds s -> ok ds t -> ~ some_item (in_some not_shadow s t) G0 l.
(** The process reads [left] and writes [own], and accesses nothing else. *)
Definition reads_writes (N : network) (p : process) (left own : nat) : Prop :=
  (nr (kind_of N p) = 2 /\ wmap (kind_of N p) = [1] /\ p_vbls p = [left; own]) \/
  (nr (kind_of N p) = 2 /\ wmap (kind_of N p) = [0] /\ p_vbls p = [own; left]).
(** A ring of [n] processes over [M]: process [i] reads x[i-1] and writes x[i]. *)
Record ring_head (n M : nat) (h : pc_head) : Prop := mkRingHead {
  rh_doms : vdoms (h_net h) = repeat M n;
  rh_membs : length (h_membs h) = n;
  rh_access : forall i m, nth_error (h_membs h) i = Some m -> reads_writes (h_net h) (m_pc m) (pred_of n i) i
}.
(** All processes find the same pairs legitimate. *)
Definition same_demand (n : nat) (Good : nat -> nat -> Prop) (h : pc_head) (G : scope) (body : list stmt) : Prop :=
  forall i m s, nth_error (h_membs h) i = Some m -> ok (vdoms (h_net h)) s ->
    (content h G body m s <-> Good (nth (pred_of n i) s 0) (nth i s 0)).
(** [legits] lists them. *)
Definition lists_good (M : nat) (Good : nat -> nat -> Prop) (legits : list (nat * nat)) : Prop :=
  NoDup legits /\ forall a b, In (a, b) legits <-> a < M /\ b < M /\ Good a b.
