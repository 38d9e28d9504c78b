(** Properties C14 and C15: the canonical-form check. *)
From Coq Require Import List Arith Lia Bool.
From Verif Require Import FinLib UniModel UniSpec UniProofs LivelockProofs Radix CanonModel CanonSpec CanonProofs.
Import ListNotations.

(** ** C14 *)
Theorem C14_minimal_is_accepted :
  forall M t, 1 <= M -> table_ok M t -> minimal M t -> canonical_ck t M = true.
Proof. exact canonical_minimal. Qed.
Print Assumptions C14_minimal_is_accepted.

(** What the check compares against, for each index it enumerates, is the
    protocol with its values renamed by a bijection. *)
Theorem C14_compared_tables_are_renamings :
  forall M t idx, 1 <= M -> table_ok M t -> idx < prod (perm_doms M) ->
    exists pi, renaming M pi /\ renamed M pi t (permute_pc_act t (perm_map M idx) M).
Proof.
  intros M t idx HM Hok Hi. exists (fun a => nth a (perm_map M idx) 0).
  apply permute_renamed; auto. apply perm_map_perm; auto.
Qed.
Print Assumptions C14_compared_tables_are_renamings.

(** A rejection is always justified by a smaller renaming. *)
Theorem C14_rejection_has_witness :
  forall M t, 1 <= M -> table_ok M t -> canonical_ck t M = false ->
    exists pi t', renaming M pi /\ renamed M pi t t' /\ lex_less t' t.
Proof.
  intros M t HM Hok H. unfold canonical_ck in H.
  assert (HX : exists idx, In idx (seq 0 (prod (perm_doms M))) /\
     lex_ltb (permute_pc_act t (perm_map M idx) M) t = true).
  { revert H. generalize (seq 0 (prod (perm_doms M))).
    induction l as [|i l IH]; cbn [forallb]; intros H; [discriminate|].
    apply andb_false_iff in H. destruct H as [H|H].
    - exists i. split; [left; auto|]. apply negb_false_iff in H. auto.
    - destruct (IH H) as (j & Hj & E). exists j. split; [right|]; auto. }
  destruct HX as (idx & Hi & E). apply in_seq in Hi.
  destruct (permute_renamed M t (perm_map M idx) HM Hok) as [H1 H2]; [apply perm_map_perm; auto; lia|].
  exists (fun a => nth a (perm_map M idx) 0), (permute_pc_act t (perm_map M idx) M).
  split; auto. split; auto. apply lex_ltb_spec; auto.
  destruct H2 as [[L _] _]. destruct Hok as [L' _]. congruence.
Qed.
Print Assumptions C14_rejection_has_witness.

(** A minimal protocol over two values, and a rejected one over three. *)
Example C14_example :
  table_ok 2 [1; 2; 2; 0] /\ minimal 2 [1; 2; 2; 0] /\
  canonical_ck [3; 3; 3; 3; 3; 0; 3; 3; 3] 3 = false.
Proof.
  assert (H : table_ok 2 [1; 2; 2; 0]) by (repeat constructor).
  split; auto. split; [|reflexivity].
  apply canonical_two; auto.
Qed.

(** ** C15 *)
(** The full claim is false: over three values the check accepts a protocol that
    has a smaller renaming, because the enumeration of swaps does not reach
    every permutation. *)
Theorem C15_accepts_only_minimal_refuted :
  exists t M, 1 <= M /\ table_ok M t /\ self_disabling (table_protocol M t) /\
    canonical_ck t M = true /\ ~ minimal M t.
Proof.
  exists [1; 3; 3; 2; 2; 3; 3; 3; 3], 3. split; [lia|]. split; [repeat constructor|]. split.
  { intros a b c d (Ha & Hb & Hc & E1) (_ & _ & Hd & E2).
    destruct a as [|[|[|a]]]; destruct b as [|[|[|b]]]; simpl in E1; try lia;
    injection E1 as <-; try lia; simpl in E2; try discriminate; injection E2 as <-; lia. }
  split; [reflexivity|]. intros H.
  set (pi := fun a => nth a [2; 0; 1] 0).
  apply (H pi [1; 3; 1; 3; 3; 3; 3; 3; 0]).
  - split.
    + intros [|[|[|a]]] Ha; unfold pi; simpl; lia.
    + intros [|[|[|a]]] [|[|[|b]]] Ha Hb; unfold pi; simpl; lia.
  - split; [repeat constructor|]. split.
    + intros a b c (Ha & Hb & Hc & E).
      destruct a as [|[|[|a]]]; destruct b as [|[|[|b]]]; simpl in E; try lia;
      injection E as <-; try lia; repeat split; unfold pi; simpl; lia.
    + intros a b c (Ha & Hb & Hc & E).
      destruct a as [|[|[|a]]]; destruct b as [|[|[|b]]]; simpl in E; try lia;
      injection E as <-; try lia.
      * exists 1, 1, 2. unfold pi, table_protocol; simpl; repeat split; lia.
      * exists 1, 0, 2. unfold pi, table_protocol; simpl; repeat split; lia.
      * exists 0, 0, 1. unfold pi, table_protocol; simpl; repeat split; lia.
  - exists 2. simpl. repeat split; lia.
Qed.
Print Assumptions C15_accepts_only_minimal_refuted.

(** What remains true.  Missing with respect to the full claim: renamings that
    the enumeration does not reach, for M >= 3. *)
Theorem C15_two_values_partial :
  forall M t, 1 <= M <= 2 -> table_ok M t -> canonical_ck t M = true -> minimal M t.
Proof. exact canonical_two. Qed.
Print Assumptions C15_two_values_partial.

(** For every M: an accepted protocol cannot be made smaller by exchanging two
    values that are both below M-1, nor by exchanging the last two. *)
Theorem C15_transpositions_partial :
  forall M t p q t', table_ok M t -> canonical_ck t M = true ->
    p < q -> (q < M - 1 \/ (q = M - 1 /\ p + 1 = q)) ->
    renamed M (fun a => if a =? p then q else if a =? q then p else a) t t' ->
    ~ lex_less t' t.
Proof. exact canonical_transposition. Qed.
Print Assumptions C15_transpositions_partial.

Example C15_example :
  table_ok 4 [1; 4; 4; 4; 4; 2; 4; 4; 4; 4; 4; 4; 4; 4; 4; 4] /\ canonical_ck [1; 4; 4; 4; 4; 2; 4; 4; 4; 4; 4; 4; 4; 4; 4; 4] 4 = true.
Proof. split; [repeat constructor|reflexivity]. Qed.
