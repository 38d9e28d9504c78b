(** The formula an action has for one process. *)
From Coq Require Import List Arith Bool Lia.
From Verif Require Import FinLib Radix FmlaModel FmlaSpec FmlaProofs FmlaProofs2 FmlaProofs3 FmlaProofs4 FmlaProps
  ActModel ActSpec ActProofs ActProofs2 ActProofs4 ActProps NetModel NetSpec NetProofs NetProofs2 NetProofs3 NetProofs4.
Import ListNotations.

Lemma Forall2_nth : forall A B (P : A -> B -> Prop) l l', Forall2 P l l' -> forall j x d, nth_error l j = Some x -> P x (nth j l' d).
Proof.
  intros A B P l l' H. induction H; intros j z d E; destruct j; cbn in *; try discriminate.
  - injection E as <-. auto.
  - eauto.
Qed.

Section Action.
Variable N : network.
Notation ds := (vdoms N).
Notation ok := (FmlaSpec.ok (vdoms N)).
Hypothesis HN : net_ok N.
Variables (lw : bool) (a : nat).
Hypothesis Ha : a < actions_in (kinds N).
Hypothesis Hr : representative_action_index (kinds N) a = Some a.

Lemma net_rep_means : forall j p, nth_error (pcs N) j = Some p -> p_kind p = act_pc (act_of (kinds N) a) ->
  means N p (represented_xns_of_pc N lw a (j, p)) (fun s t => process_step N (action_xfmlae N lw a) j s t).
Proof.
  intros j p Hj K. assert (Hp : In p (pcs N)) by (eapply nth_error_In; eauto).
  unfold represented_xns_of_pc, action_xfmlae. cbn [fst snd]. destruct lw.
  - cbv zeta. pose proof (light_denotes N HN a Ha Hr) as D.
    assert (MF : means N p (fold_left (fun x r => or_PFmla x (xn_of_pc N p (vals (act_of (kinds N) r)))) (represented_actions (kinds N) a) (Cst false))
       (class_move N a p)).
    { assert (G : forall l x R, (forall r, In r l -> r < actions_in (kinds N) /\ act_pc (act_of (kinds N) r) = act_pc (act_of (kinds N) a)) -> means N p x R ->
        means N p (fold_left (fun x r => or_PFmla x (xn_of_pc N p (vals (act_of (kinds N) r)))) l x) (fun s t => R s t \/ exists r, In r l /\ move N r p s t)).
      { induction l as [|r l IH]; intros x R Hl M; cbn [fold_left].
        - apply (means_ext _ _ _ _ _ M). intros s t _ _. split; auto. intros [H|(r & [] & _)]; auto.
        - destruct (Hl r (or_introl eq_refl)) as (B1 & B2). destruct (C39_decode (kinds N) r B1) as (_ & V & _).
          rewrite B2, <- K in V. fold (kind_of N p) in V.
          assert (M2 : means N p (xn_of_pc N p (vals (act_of (kinds N) r))) (move N r p)).
          { apply (means_ext _ _ _ (local_move N p (vals (act_of (kinds N) r)))).
            - split; [apply pc_proc_ok; auto|]. intros s t S' T. apply pc_step_move; auto.
            - intros s t _ _. unfold move. rewrite B2, K. tauto. }
          apply (means_ext _ _ _ _ _ (IH _ _ (fun q Hq => Hl q (or_intror Hq)) (means_or N p _ _ _ _ M M2))).
          intros s t _ _. cbn. split.
          + intros [[X|X]|(q & Hq & X)]; eauto.
          + intros [X|(q & [<-|Hq] & X)]; eauto. }
      assert (HR : forall r, In r (represented_actions (kinds N) a) ->
        r < actions_in (kinds N) /\ act_pc (act_of (kinds N) r) = act_pc (act_of (kinds N) a)).
      { intros r Hr'. apply represented_iff in Hr'. destruct Hr' as (B1 & B2). split; auto.
        destruct (C40_representative (kinds N) r (links_ok N HN) B1) as (b & E & _ & (EP & _) & _).
        rewrite B2 in E. injection E as <-. auto. }
      apply (means_ext _ _ _ _ _ (G (represented_actions (kinds N) a) (Cst false) (fun _ _ => False) HR (means_false N HN p Hp))).
      intros s t _ _. rewrite (class_iff N HN a Ha Hr). tauto. }
    set (x := fold_left _ _ _) in *. clearbody x.
    pose proof (det_iff N a Ha) as DI. destruct (random_write_exists (kind_of_action N a)).
    + apply (means_ext _ _ _ _ _ MF). intros s t S' T. rewrite (denotes_process N _ _ D j p s t Hj S' T).
      split; [|tauto]. intros H. split; auto. intros X. apply DI in X. discriminate.
    + apply (means_ext _ _ _ _ _ (means_disable N p x _ MF)). intros s t S' T. rewrite (denotes_process N _ _ D j p s t Hj S' T). tauto.
  - pose proof (cached_trace N HN a Ha) as D.
    apply (means_ext _ _ _ (trace N (represented_actions (kinds N) a) p)).
    + apply (Forall2_nth _ _ _ _ _ D j p (Cst false) Hj).
    + intros s t S' T. rewrite (denotes_process N _ _ D j p s t Hj S' T). tauto.
Qed.
End Action.
