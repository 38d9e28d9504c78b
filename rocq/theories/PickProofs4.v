(** The weights of the ways of picking. *)
From Coq Require Import List Arith Bool Lia Sorted Permutation.
From Verif Require Import FinLib ReachModel ReachSpec ReachProofs StabModel StabProofs RankModel RankSpec RankProofs RankProofs2 ConflictModel ConflictSpec ConflictProofs
  ActModel SearchModel SearchSpec SearchProofs2 SearchProofs3 PickModel PickSpec PickProofs PickProofs2 PickProofs3.
Import ListNotations.

Lemma weigh_in : forall w cs l, weigh w cs = Some l -> (forall n a, In (n, a) l -> In a cs /\ w a = Some n) /\ (forall a, In a cs -> exists n, In (n, a) l /\ w a = Some n).
Proof.
  intros w. induction cs as [|a cs IH]; intros l; cbn; [intros E; injection E as <-; split; [intros ? ? []|intros ? []]|].
  destruct (w a) as [n|] eqn:E; [|discriminate]. destruct (weigh w cs) as [l'|]; [|discriminate]. intros X. injection X as <-. destruct (IH l' eq_refl) as (A & B). split.
  - intros m b [X|X]; [injection X as <- <-; auto|]. apply A in X. tauto.
  - intros b [<-|X]; [exists n; split; auto; left; auto|]. destruct (B b X) as (m & M & M'). exists m. split; auto. right; auto.
Qed.
Lemma greedy_sum : forall I (p : pst I) a l w, fold_left (fun (w : option nat) j => if smem a (dl_cands _ (dl I p j)) then Some (match w with None => j | Some n => n + j end) else w) l w =
  match w, filter (fun j => smem a (dl_cands _ (dl I p j))) l with None, [] => None | None, k => Some (list_sum k) | Some n, k => Some (n + list_sum k) end.
Proof.
  intros I p a. induction l as [|j l IH]; intros w; cbn [fold_left filter].
  - destruct w; cbn; auto; f_equal; lia.
  - rewrite IH. destruct (smem a _); auto. destruct w as [n|]; unfold list_sum; cbn; f_equal; lia.
Qed.
Section Single.
Variable p : part.
Hypothesis RK : ranked p.
Variable n : nat.
Hypothesis EX : exists a, resolves p n a.
Hypothesis FEW : fewest [p] n.
Lemma greedy_exact : forall a m l, greedy_weight (projT1 p) (projT2 p) n a = Some m -> resolved_ranks p a l -> list_sum l = m.
Proof.
  intros a m l W (N & L). pose proof (single_full p n EX) as F. unfold greedy_weight in W. rewrite greedy_sum in W.
  set (k := filter (fun j => smem a (dl_cands _ (dl (projT1 p) (projT2 p) j))) (seq n (length (ranks (projT2 p)) - n))) in W.
  assert (P : Permutation l k).
  { apply NoDup_Permutation; auto; [apply NoDup_filter, seq_NoDup|]. intros j. unfold k. rewrite filter_In, in_seq, smem_in.
    change (dl_cands _ (dl (projT1 p) (projT2 p) j)) with (part_rank p j). rewrite (part_rank_iff p RK F), L. split; [|tauto]. intros R. split; auto.
    pose proof (FEW p j a (or_introl eq_refl) R) as G. apply (part_rank_iff p RK F) in R. assert (NE : part_rank p j <> []) by (intros Y; rewrite Y in R; destruct R).
    pose proof (idx_in (projT1 p) (projT2 p) j NE). lia. }
  assert (S : list_sum l = list_sum k). { clear - P. unfold list_sum. induction P; cbn in *; lia. }
  rewrite S. destruct k; [discriminate|]. injection W as <-. reflexivity.
Qed.
Lemma sum_flat : forall St (d : list (dlset St)) i, fold_right (fun x k => length (dl_cands _ x) + k) 0 d = length (flat_map (fun x => map (pair (fst x)) (dl_cands _ (snd x))) (combine (seq i (length d)) d)).
Proof.
  intros T. induction d as [|x d IH]; intros i; cbn; auto. rewrite app_length, map_length, (IH (S i)). reflexivity.
Qed.
Lemma in_combine_seq : forall A (d : list A) i j x, In (j, x) (combine (seq i (length d)) d) <-> i <= j /\ nth_error d (j - i) = Some x.
Proof.
  intros A. induction d as [|y d IH]; intros i j x; cbn.
  - split; [tauto|]. intros (_ & H). destruct (j - i); discriminate.
  - rewrite IH. split.
    + intros [E|(H1 & H2)]; [injection E as <- <-; rewrite Nat.sub_diag; auto|]. split; [lia|]. replace (j - i) with (S (j - S i)) by lia. auto.
    + intros (H1 & H2). destruct (Nat.eq_dec i j) as [->|NE]; [rewrite Nat.sub_diag in H2; injection H2 as ->; auto|]. right. split; [lia|].
      replace (j - i) with (S (j - S i)) in H2 by lia. auto.
Qed.
Lemma nodup_flat : forall St (d : list (dlset St)) i, (forall x, In x d -> NoDup (dl_cands _ x)) -> NoDup (flat_map (fun x => map (pair (fst x)) (dl_cands _ (snd x))) (combine (seq i (length d)) d)).
Proof.
  intros T. induction d as [|x d IH]; intros i H; cbn; [constructor|]. 
  assert (A : NoDup (map (pair i) (dl_cands T x))).
  { specialize (H x (or_introl eq_refl)). induction H as [|a l N H IH']; cbn; constructor; auto. rewrite in_map_iff. intros (b & E & B). injection E as ->. auto. }
  specialize (IH (S i) (fun y Y => H y (or_intror Y))). set (r := flat_map _ _) in *. assert (G : forall y, In y (map (pair i) (dl_cands T x)) -> ~ In y r).
  { intros y Y Z. apply in_map_iff in Y. destruct Y as (a & <- & _). apply in_flat_map in Z. destruct Z as ((j & z) & Z1 & Z2). apply in_combine_seq in Z1. cbn in Z2. apply in_map_iff in Z2. destruct Z2 as (b & E & _). injection E as -> _. lia. }
  clearbody r. induction A as [|y k N A IH']; cbn; auto. constructor; [|apply IH'; intros z Z; apply G; right; auto]. rewrite in_app_iff. intros [Y|Y]; auto. apply (G y); auto. left; auto.
Qed.
Lemma lcv_exact : forall a m l, In a (p_cands p) -> lcv_weight (projT1 p) (projT2 p) a = Some m -> remaining p a l -> length l = m.
Proof.
  intros a m l CA W (N & L). pose proof (single_full p n EX) as F. unfold lcv_weight in W.
  destruct (revise_deadlocks _ _ _ _ [a] [] _) as [d|] eqn:E; [|discriminate]. injection W as <-.
  pose proof (revise_exact _ (dec (projT1 p)) (univ (projT1 p)) (rd_all p RK) (fun a => src p a) (p_cands p) [a] [] _ (rd_nodup p RK)
    ltac:(intros b [<-|[]]; auto) ltac:(intros b []) _ (rd_ranks p RK F)) as R. rewrite E in R.
  destruct R as (RD & _). unfold newc, added, sminus in RD. set (lo := filter (fun _ => _) (filter _ _)) in RD. set (sd := fun s : St (projT1 p) => dead (projT2 p) s = true /\ _) in RD.
  assert (LO : forall s b, sd s -> (In b lo /\ src p b s = true <-> In b (p_cands p) /\ src p b s = true)).
  { intros s b (_ & Z). unfold lo. rewrite !filter_In. cbn. split; [tauto|]. intros (B1 & B2). split; auto. split; auto. split; auto. destruct (Nat.eqb_spec b a) as [->|]; cbn; auto.
    exfalso. apply Z. exists a. split; [left; auto|auto]. }
  assert (CN : forall s, sd s -> enabled_count (St (projT1 p)) (fun a => src p a) lo s = count p s).
  { intros s Z. apply Permutation_length, NoDup_Permutation; try (apply NoDup_filter; unfold lo; repeat apply NoDup_filter; apply (rd_nodup p RK)).
    intros b. rewrite !filter_In. apply LO; auto. }
  assert (R0 : dl_cands _ (nth 0 d (dl0 _)) = []).
  { destruct (dl_cands _ (nth 0 d (dl0 _))) as [|b k] eqn:Q; auto. exfalso. assert (X : In b (dl_cands _ (nth 0 d (dl0 _)))) by (rewrite Q; left; auto).
    apply (rk_cands _ _ _ _ _ RD) in X. destruct X as (X & s & _ & C & G). unfold enabled_count in C. assert (Y : In b (filter (fun a => src p a s) lo)) by (apply filter_In; auto).
    destruct (filter _ lo); [destruct Y|discriminate]. }
  assert (T : fold_right (fun x k => length (dl_cands _ x) + k) 0 (tl d) = fold_right (fun x k => length (dl_cands _ x) + k) 0 d).
  { destruct d as [|x d']; auto. cbn in R0 |- *. rewrite R0. reflexivity. }
  rewrite T, (sum_flat _ d 0). apply Permutation_length, NoDup_Permutation; auto.
  - apply nodup_flat. intros x X. apply (In_nth _ _ (dl0 _)) in X. destruct X as (i & _ & <-). apply sorted_nodup, (rk_order _ _ _ _ _ RD).
  - intros (j & b). rewrite L, in_flat_map. split.
    + intros (B & s & c & (_ & D) & NE & C & CL & G). assert (Z : sd s).
      { split; auto. intros (a' & [<-|[]] & X). apply NE. apply (src_iff p RK); auto. }
      apply (src_iff p RK) in G. assert (X : In b (dl_cands _ (nth j d (dl0 _)))).
      { apply (rk_cands _ _ _ _ _ RD). split; [apply (LO s b Z); auto|]. exists s. split; auto. split; auto. rewrite CN; auto. rewrite <- CL. symmetry. apply choices_count; auto. }
      exists (j, nth j d (dl0 _)). split; [|cbn; apply in_map; auto]. apply in_combine_seq. split; [lia|]. rewrite Nat.sub_0_r.
      apply nth_error_nth'. destruct (Nat.lt_ge_cases j (length d)) as [J|J]; auto. rewrite nth_overflow in X by auto. destruct X.
    + intros ((i & x) & X1 & X2). cbn in X2. apply in_map_iff in X2. destruct X2 as (b' & Q & X2). injection Q as -> ->. apply in_combine_seq in X1. destruct X1 as (_ & X1).
      rewrite Nat.sub_0_r in X1. apply (nth_error_nth d j (dl0 _)) in X1. rewrite <- X1 in X2. apply (rk_cands _ _ _ _ _ RD) in X2. destruct X2 as (B & s & Z & C & G).
      split; [apply (LO s b Z); auto|]. exists s, (filter (fun a => src p a s) (p_cands p)). pose proof Z as (Z1 & Z2). split; [split; auto|]. split.
      * intros Y. apply Z2. exists a. split; [left; auto|]. apply src_iff; auto.
      * split; [apply choices_filter; auto|]. split; [rewrite <- C; symmetry; apply CN; auto|]. apply src_iff; auto.
Qed.
End Single.
