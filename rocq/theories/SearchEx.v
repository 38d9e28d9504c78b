(** Small instances used as concrete cases beside the theorems about the search. *)
From Coq Require Import List Arith Bool Lia.
From Verif Require Import FinLib ReachModel ReachSpec StabModel RankModel ConflictModel SearchModel SearchSpec.
Import ListNotations.

Inductive st4 := L | Z | X | Y.
Definition st4_dec (a b : st4) : {a = b} + {a <> b}.
Proof. decide equality. Defined.
Definition st4_all : list st4 := [L; Z; X; Y].

Definition plain_opt : options := mkOptions 0 false false false.
Definition plain_sys (inv : st4 -> bool) : sys st4 :=
  mkSys st4 inv (fun _ => true) (fun _ _ => false) (fun a b => if st4_dec a b then true else false) false false
    FutureAndClosed DirectInvariant FutureShadow.

(** An instance over four states: its legitimate states, the transitions of its
    actions, its candidates and whether it is lightweight. *)
Definition mk4 (inv : st4 -> bool) (ax : nat -> st4 -> st4 -> bool) (cs : list nat) (lgt : bool) : inst :=
  mkInst st4 st4_dec st4_all (plain_sys inv) plain_opt ax (fun l => map ax l)
    (fun _ _ _ => false) (fun p => match filter p st4_all with x :: _ => x | [] => L end)
    (fun _ => false) cs false lgt.

Lemma mk4_proper : forall inv ax cs lgt, proper (mk4 inv ax cs lgt).
Proof.
  intros inv ax cs lgt. split; cbn.
  - intros []; cbn; auto.
  - intros p (s & Hs). destruct (p L) eqn:E1; auto. destruct (p Z) eqn:E2; auto. destruct (p X) eqn:E3; auto.
    destruct (p Y) eqn:E4; auto. destruct s; congruence.
  - intros x. destruct (st4_dec x x); congruence.
  - intros x y. destruct (st4_dec x y), (st4_dec y x); congruence.
  - intros x y z. destruct (st4_dec x y), (st4_dec y z), (st4_dec x z); congruence.
Qed.
Lemma mk4_plain : forall inv ax cs lgt, plain (mk4 inv ax cs lgt).
Proof. intros. split; cbn; auto; discriminate. Qed.

Definition only_L (s : st4) : bool := match s with L => true | _ => false end.
Definition L_or_Y (s : st4) : bool := match s with L | Y => true | _ => false end.

(** Transitions into [L]: every action from [Z], those of [xs] from [X], those of
    [ys] from [Y]. *)
Definition into_L (xs ys : list nat) (a : nat) (s t : st4) : bool :=
  match s, t with
  | Z, L => true
  | X, L => memb a xs
  | Y, L => memb a ys
  | _, _ => false
  end.

Definition first_place : fset -> list fset -> nat := fun _ _ => 0.
Definition no_clash : nat -> nat -> bool := fun _ _ => false.
Definition first_cand : nat -> node -> option nat := fun _ nd =>
  match filter (fun p => negb (is_empty (p_cands p))) (parts nd) with
  | p :: _ => match p_cands p with a :: _ => Some a | [] => None end
  | [] => None
  end.

Lemma first_cand_in : forall t nd a, first_cand t nd = Some a -> exists p, In p (parts nd) /\ In a (p_cands p).
Proof.
  intros t nd a. unfold first_cand. destruct (filter _ (parts nd)) as [|p l] eqn:E; [discriminate|].
  destruct (p_cands p) as [|c cs] eqn:Ec; [discriminate|]. intros H. injection H as <-. exists p.
  assert (In p (filter (fun p => negb (is_empty (p_cands p))) (parts nd))) by (rewrite E; left; auto).
  apply filter_In in H. rewrite Ec. simpl. tauto.
Qed.
Lemma first_cand_some : forall t nd, first_cand t nd = None -> forall p, In p (parts nd) -> p_cands p = [].
Proof.
  intros t nd. unfold first_cand. destruct (filter _ (parts nd)) as [|q l] eqn:E.
  - intros _ p Hp. destruct (p_cands p) as [|c cs] eqn:Ec; auto. exfalso.
    assert (In p (filter (fun p => negb (is_empty (p_cands p))) (parts nd))) by (apply filter_In; rewrite Ec; auto).
    rewrite E in H. destruct H.
  - assert (In q (filter (fun p => negb (is_empty (p_cands p))) (parts nd))) by (rewrite E; left; auto).
    apply filter_In in H. destruct H as (_ & H). destruct (p_cands q); [discriminate|discriminate].
Qed.
