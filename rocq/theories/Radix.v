(** Mixed-radix numbers: [index_of_state] and [state_of_index] of the cx library
    (external to /repo; used in canonical.cc:49, xnpc.cc:159, pfmla.cc:263).
    The first digit is the most significant one. *)
From Coq Require Import List Arith Lia.
From Verif Require Import FinLib.
Import ListNotations.

Fixpoint prod (doms : list nat) : nat :=
  match doms with [] => 1 | d :: ds => d * prod ds end.

Fixpoint index_of_state (state doms : list nat) : nat :=
  match state, doms with
  | s :: ss, _ :: ds => s * prod ds + index_of_state ss ds
  | _, _ => 0
  end.

Fixpoint state_of_index (idx : nat) (doms : list nat) : list nat :=
  match doms with
  | [] => []
  | _ :: ds => (idx / prod ds) :: state_of_index (idx mod prod ds) ds
  end.

Lemma prod_pos : forall ds, Forall (fun d => d <> 0) ds -> prod ds <> 0.
Proof. induction 1; simpl; nia. Qed.

Lemma prod_pos_inv : forall ds, prod ds <> 0 -> Forall (fun d => d <> 0) ds.
Proof. induction ds; simpl; intros H; constructor; nia || (apply IHds; nia). Qed.

Lemma index_lt : forall state doms, Forall2 lt state doms -> index_of_state state doms < prod doms.
Proof. induction 1; simpl; nia. Qed.

Lemma state_of_index_spec : forall doms idx, idx < prod doms ->
  Forall2 lt (state_of_index idx doms) doms /\ index_of_state (state_of_index idx doms) doms = idx.
Proof.
  induction doms as [|d ds IH]; intros idx H; simpl in *.
  - split; [constructor|lia].
  - assert (Hp : prod ds <> 0) by nia.
    pose proof (Nat.mod_upper_bound idx (prod ds) Hp).
    destruct (IH (idx mod prod ds)) as [H1 H2]; auto. split.
    + constructor; auto. apply Nat.div_lt_upper_bound; auto. lia.
    + rewrite H2. rewrite (Nat.div_mod idx (prod ds)) at 3 by auto. lia.
Qed.

Lemma state_of_index_of_state : forall state doms, Forall2 lt state doms ->
  state_of_index (index_of_state state doms) doms = state.
Proof.
  induction 1 as [|s d ss ds Hs F IH]; simpl; auto.
  pose proof (index_lt _ _ F). rewrite Nat.div_add_l by lia. rewrite Nat.div_small by lia.
  rewrite (Nat.add_comm (s * prod ds)). rewrite Nat.mod_add by lia. rewrite Nat.mod_small by lia.
  rewrite IH. f_equal. lia.
Qed.
