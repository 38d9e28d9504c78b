(** Who depends on whom. *)
From Coq Require Import List Arith.
From Verif Require Import ActModel ActSpec NetModel NetSpec GraphModel.
Import ListNotations.

Section Spec.
Variable N : network.
(** Process [q] mentions the variable [x]. *)
Definition mentions (q : process) (x : nat) : Prop := exists i, i < accesses N q /\ vbl_at q i = x.
(** Process [i] may write a variable that process [j], another one, mentions. *)
Definition informs (i j : nat) : Prop :=
  i <> j /\ exists p q x, nth_error (pcs N) i = Some p /\ nth_error (pcs N) j = Some q /\ own N p x /\ mentions q x.
(** The same, but [j] sees the value. *)
Definition sees (q : process) (x : nat) : Prop := exists i, i < accesses N q /\ visible (access_at N q i) /\ vbl_at q i = x.
Definition tells (i j : nat) : Prop :=
  i <> j /\ exists p q x, nth_error (pcs N) i = Some p /\ nth_error (pcs N) j = Some q /\ own N p x /\ sees q x.
End Spec.
(** There is an arrow head at [j] on a line from [i]. *)
Definition arrow (l : list edge) (i j : nat) : Prop := In (Arc i j) l \/ In (Both i j) l \/ In (Both j i) l.
(** A line between [i] and [j] *)
Definition between (i j : nat) (e : edge) : bool :=
  match e with Arc a b | Both a b => ((a =? i) && (b =? j)) || ((a =? j) && (b =? i)) end.
