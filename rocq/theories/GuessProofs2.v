(** The threads of the task -test. *)
From Coq Require Import List Arith Bool Lia.
From Verif Require Import GuessModel GuessSpec.
Import ListNotations.

Lemma happens_snoc : forall n es m e, happens n m (es ++ [e]) =
  match happens n m es with Some m' => happen n m' e | None => None end.
Proof.
  intros n. induction es as [|x es IH]; intros m e; cbn [app happens].
  - destruct (happen n m e); auto.
  - destruct (happen n m x); auto.
Qed.

Lemma results_app : forall pc a b, results pc (a ++ b) = results pc a ++ results pc b.
Proof.
  intros pc. induction a as [|x a IH]; intros b; cbn [app results]; auto.
  destruct x as [p|p r|]; auto. destruct (p =? pc); cbn; rewrite IH; auto.
Qed.

Lemma first_app : forall a b, first_result (a ++ b) = match first_result a with Some r => Some r | None => first_result b end.
Proof. induction a as [|x a IH]; intros b; cbn [app first_result]; auto. destruct x; auto. Qed.

Lemma set_nth_length : forall A (l : list A) i x, length (set_nth i x l) = length l.
Proof. intros A. induction l as [|y l IH]; intros [|i] x; cbn; auto. Qed.

Lemma set_nth_error : forall A (l : list A) i j x, i < length l ->
  nth_error (set_nth i x l) j = if i =? j then Some x else nth_error l j.
Proof.
  intros A. induction l as [|y l IH]; intros [|i] [|j] x H; cbn in *; auto; try lia. apply IH. lia.
Qed.

Record inv (npcs n : nat) (es : list event) (m : team) : Prop := mkInv {
  i_len : length (m_threads m) = npcs;
  i_count : forall pc t, nth_error (m_threads m) pc = Some t -> length (results pc es) = t_trial t;
  i_busy : forall pc t, nth_error (m_threads m) pc = Some t -> t_busy t = true -> guess_of npcs pc (t_trial t) < n;
  i_past : forall pc t k, nth_error (m_threads m) pc = Some t -> k < t_trial t -> guess_of npcs pc k < n;
  i_out : forall pc t, nth_error (m_threads m) pc = Some t -> t_out t = true ->
    s_done (m_shared m) = true \/ n <= guess_of npcs pc (t_trial t);
  i_none : forall pc, npcs <= pc -> results pc es = [];
  i_some : s_done (m_shared m) = false -> forall pc r, In r (results pc es) -> r <> None;
  i_done : ~ interrupted es -> s_done (m_shared m) = true ->
    s_found (m_shared m) = false /\ exists pc, In None (results pc es);
  i_found : s_found (m_shared m) = true -> first_result es = Some (Some (s_actions (m_shared m)));
  i_not : s_done (m_shared m) = false -> s_found (m_shared m) = false -> forall pc, results pc es = []
}.

Lemma inv_0 : forall npcs n, inv npcs n [] (team0 npcs).
Proof.
  intros npcs n. unfold team0. split; cbn [m_threads m_shared s_done s_found s_actions]; auto; try discriminate.
  - apply repeat_length.
  - intros pc t H. apply nth_error_In, repeat_spec in H. subst. auto.
  - intros pc t H. apply nth_error_In, repeat_spec in H. subst. discriminate.
  - intros pc t k H. apply nth_error_In, repeat_spec in H. subst. cbn. lia.
  - intros pc t H. apply nth_error_In, repeat_spec in H. subst. discriminate.
Qed.

Lemma not_app : forall es e, ~ interrupted (es ++ [e]) -> ~ interrupted es /\ e <> Signal.
Proof.
  intros es e H. split; intros X; apply H; apply in_or_app; [left; auto|right; left; auto].
Qed.

Lemma inv_step : forall npcs n es m e m', inv npcs n es m -> happen n m e = Some m' -> inv npcs n (es ++ [e]) m'.
Proof.
  intros npcs n es m e m' [H1 H2 H3 H4 H5 H6 H7 H8 H9 H10] E. destruct e as [pc|pc r|]; cbn [happen] in E.
  - unfold look in E. destruct (nth_error (m_threads m) pc) as [t|] eqn:Et; [|discriminate].
    assert (Hpc : pc < length (m_threads m)) by (apply nth_error_Some; congruence).
    destruct (t_busy t || t_out t) eqn:Eb; [discriminate|]. apply orb_false_iff in Eb. destruct Eb as (Eb & Eo).
    injection E as <-.
    assert (R : forall p, results p (es ++ [Look pc]) = results p es) by (intros p; rewrite results_app; cbn; apply app_nil_r).
    set (go := negb (s_done (m_shared m)) && (guess_of (length (m_threads m)) pc (t_trial t) <? n)) in *.
    assert (Ht : forall q u, nth_error (set_nth pc (if go then mkThread (t_trial t) true false else mkThread (t_trial t) false true)
                   (m_threads m)) q = Some u ->
                 (q <> pc /\ nth_error (m_threads m) q = Some u) \/
                 (q = pc /\ t_trial u = t_trial t /\ (t_busy u = true -> go = true) /\ (t_out u = true -> go = false))).
    { intros q u. rewrite set_nth_error by auto. destruct (Nat.eqb_spec pc q) as [->|Hq]; [|auto].
      intros X. injection X as <-. right. destruct go; cbn; repeat split; auto; discriminate. }
    split; cbn [m_threads m_shared].
    + rewrite set_nth_length. auto.
    + intros q u Hu. rewrite R. destruct (Ht q u Hu) as [(_ & X)|(-> & X & _)]; [auto|]. rewrite X. auto.
    + intros q u Hu B. destruct (Ht q u Hu) as [(_ & X)|(-> & X & Y & _)]; [auto|]. rewrite X.
      specialize (Y B). unfold go in Y. apply andb_true_iff in Y. destruct Y as (_ & Y). apply Nat.ltb_lt in Y. congruence.
    + intros q u k Hu K. destruct (Ht q u Hu) as [(_ & X)|(-> & X & _)]; [eauto|]. rewrite X in K. eauto.
    + intros q u Hu B. destruct (Ht q u Hu) as [(_ & X)|(-> & X & _ & Y)]; [auto|]. rewrite X.
      specialize (Y B). unfold go in Y. apply andb_false_iff in Y. destruct Y as [Y|Y].
      * left. apply negb_false_iff. auto.
      * right. apply Nat.ltb_ge in Y. congruence.
    + intros q Hq. rewrite R. auto.
    + intros D q r0. rewrite R. exact (H7 D q r0).
    + intros D E. destruct (not_app _ _ D) as (D' & _). destruct (H8 D' E) as (F & q & G). split; auto. exists q. rewrite R. auto.
    + intros F. rewrite first_app, (H9 F). auto.
    + intros D F q. rewrite R. auto.
  - unfold end_trial in E. destruct (nth_error (m_threads m) pc) as [t|] eqn:Et; [|discriminate].
    assert (Hpc : pc < length (m_threads m)) by (apply nth_error_Some; congruence).
    destruct (t_busy t) eqn:Eb; [|discriminate]. injection E as <-.
    assert (R : forall p, results p (es ++ [End pc r]) = results p es ++ if pc =? p then [r] else []).
    { intros p. rewrite results_app. cbn. auto. }
    assert (Ht : forall q u, nth_error (set_nth pc (mkThread (S (t_trial t)) false false) (m_threads m)) q = Some u ->
                 (q <> pc /\ nth_error (m_threads m) q = Some u) \/ (q = pc /\ u = mkThread (S (t_trial t)) false false)).
    { intros q u. rewrite set_nth_error by auto. destruct (Nat.eqb_spec pc q) as [->|Hq]; [|auto].
      intros X. injection X as <-. auto. }
    assert (Dm : s_done (report (m_shared m) r) = false -> s_done (m_shared m) = false /\ r <> None).
    { unfold report. destruct (s_done (m_shared m)) eqn:D; [congruence|]. destruct r as [acts|]; [|discriminate].
      intros _. split; [auto|discriminate]. }
    split; cbn [m_threads m_shared].
    + rewrite set_nth_length. auto.
    + intros q u Hu. rewrite R, app_length. destruct (Ht q u Hu) as [(X & Y)|(-> & ->)].
      * destruct (Nat.eqb_spec pc q); [congruence|]. cbn. rewrite (H2 q u Y). lia.
      * rewrite Nat.eqb_refl. cbn. rewrite (H2 pc t Et). lia.
    + intros q u Hu B. destruct (Ht q u Hu) as [(X & Y)|(-> & ->)]; [auto|discriminate].
    + intros q u k Hu K. destruct (Ht q u Hu) as [(X & Y)|(-> & ->)]; [eauto|]. cbn in K.
      destruct (Nat.eq_dec k (t_trial t)) as [->|]; [auto|]. apply (H4 pc t k Et). lia.
    + intros q u Hu B. destruct (Ht q u Hu) as [(X & Y)|(-> & ->)]; [|discriminate].
      destruct (H5 q u Y B) as [Z|Z]; auto. left. unfold report. rewrite Z. auto.
    + intros q Hq. rewrite R, (H6 q Hq). destruct (Nat.eqb_spec pc q); [lia|auto].
    + intros D q r0 Hr. destruct (Dm D) as (D1 & D2). rewrite R in Hr. apply in_app_or in Hr. destruct Hr as [Hr|Hr]; [eauto|].
      destruct (pc =? q); [|destruct Hr]. destruct Hr as [<-|[]]. auto.
    + intros D E. destruct (not_app _ _ D) as (D' & _). unfold report in *.
      destruct (s_done (m_shared m)) eqn:Ed.
      * destruct (H8 D' eq_refl) as (F & q & G). split; auto. exists q. rewrite R. apply in_or_app. auto.
      * destruct r as [acts|].
        -- destruct (s_found (m_shared m)); cbn in E; congruence.
        -- split; auto. exists pc. rewrite R, Nat.eqb_refl. apply in_or_app. right. left. auto.
    + intros F. rewrite first_app. unfold report in *.
      destruct (s_done (m_shared m)) eqn:Ed; [rewrite (H9 F); auto|].
      destruct r as [acts|]; [|discriminate]. destruct (s_found (m_shared m)) eqn:Ef; [rewrite (H9 eq_refl); auto|].
      cbn [s_actions]. destruct (first_result es) as [x|] eqn:Ex; [|reflexivity]. exfalso.
      specialize (H10 eq_refl eq_refl). clear - Ex H10. induction es as [|e es IH]; [discriminate|].
      destruct e as [p|p y|]; cbn in *; auto. specialize (H10 p). rewrite Nat.eqb_refl in H10. discriminate.
    + intros D F q. exfalso. unfold report in *. destruct (s_done (m_shared m)) eqn:Ed; [congruence|].
      destruct r as [acts|]; [|discriminate]. destruct (s_found (m_shared m)) eqn:Ef; cbn in F; congruence.
  - injection E as <-.
    assert (R : forall p, results p (es ++ [Signal]) = results p es) by (intros p; rewrite results_app; cbn; apply app_nil_r).
    split; cbn [m_threads m_shared s_done s_found s_actions]; auto; try discriminate.
    + intros q u Hu. rewrite R. auto.
    + intros q Hq. rewrite R. auto.
    + intros D. exfalso. apply (proj2 (not_app _ _ D)). auto.
    + intros F. rewrite first_app, (H9 F). auto.
Qed.

Lemma happens_inv : forall npcs n es m, happens n (team0 npcs) es = Some m -> inv npcs n es m.
Proof.
  intros npcs n. induction es as [|e es IH] using rev_ind; intros m H.
  - cbn in H. injection H as <-. apply inv_0.
  - rewrite happens_snoc in H. destruct (happens n (team0 npcs) es) as [m0|] eqn:E; [|discriminate].
    apply (inv_step npcs n es m0 e m); auto.
Qed.

Lemma all_tested : forall npcs n es m, 0 < npcs -> inv npcs n es m ->
  (forall t, In t (m_threads m) -> t_out t = true) -> s_done (m_shared m) = false ->
  forall g, g < n -> exists acts, tested npcs es g (Some acts).
Proof.
  intros npcs n es m Hp [H1 H2 H3 H4 H5 H6 H7 H8 H9 H10] Ho Hd g Hg. unfold tested.
  pose proof (Nat.mod_upper_bound g npcs ltac:(lia)) as Hm.
  destruct (nth_error (m_threads m) (g mod npcs)) as [t|] eqn:Et; [|apply nth_error_None in Et; lia].
  destruct (H5 _ _ Et (Ho t (nth_error_In _ _ Et))) as [X|X]; [congruence|].
  assert (Hlt : g / npcs < length (results (g mod npcs) es)).
  { rewrite (H2 _ _ Et). unfold guess_of in X. pose proof (Nat.div_mod g npcs ltac:(lia)).
    destruct (Nat.lt_ge_cases (g / npcs) (t_trial t)); auto. nia. }
  destruct (nth_error (results (g mod npcs) es) (g / npcs)) as [[acts|]|] eqn:E.
  - exists acts. auto.
  - apply nth_error_In in E. destruct (H7 Hd _ _ E). auto.
  - apply nth_error_None in E. lia.
Qed.

Lemma result_of_guess : forall npcs n es m pc r, inv npcs n es m -> In r (results pc es) ->
  exists g, g < n /\ tested npcs es g r.
Proof.
  intros npcs n es m pc r [H1 H2 H3 H4 H5 H6 H7 H8 H9 H10] Hr.
  destruct (Nat.lt_ge_cases pc npcs) as [Hpc|Hpc]; [|rewrite (H6 pc Hpc) in Hr; destruct Hr].
  apply In_nth_error in Hr. destruct Hr as (k & Hk).
  destruct (nth_error (m_threads m) pc) as [t|] eqn:Et; [|apply nth_error_None in Et; lia].
  assert (K : k < t_trial t) by (rewrite <- (H2 _ _ Et); apply nth_error_Some; congruence).
  exists (guess_of npcs pc k). split; [eauto|]. unfold tested, guess_of.
  replace ((npcs * k + pc) mod npcs) with pc.
  - replace ((npcs * k + pc) / npcs) with k; auto.
    rewrite Nat.mul_comm, Nat.div_add_l by lia. rewrite (Nat.div_small pc npcs Hpc). lia.
  - rewrite Nat.add_comm, Nat.mul_comm, Nat.mod_add by lia. symmetry. apply Nat.mod_small. auto.
Qed.
