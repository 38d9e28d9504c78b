(** Views, walks and rings; the search for a closed walk. *)
From Coq Require Import List Arith Bool Lia.
From Verif Require Import Radix BiringModel BiringSpec.
Import ListNotations.

(** * Tables *)
Lemma set_bit_length : forall s i b, length (set_bit s i b) = length s.
Proof. induction s as [|x s IH]; intros [|i] b; cbn; auto. Qed.

Lemma ck_set_bit : forall s i b j, i < length s -> ck (set_bit s i b) j = if i =? j then b else ck s j.
Proof.
  unfold ck. induction s as [|x s IH]; intros [|i] b [|j] H; cbn in *; auto; try lia. apply IH. lia.
Qed.

Fixpoint ones (s : bits) : nat := match s with [] => 0 | b :: r => (if b then 1 else 0) + ones r end.
Lemma ones_le : forall s, ones s <= length s.
Proof. induction s as [|[] s IH]; cbn; lia. Qed.
Lemma ones_set : forall s i, i < length s -> ck s i = false -> ones (set_bit s i true) = S (ones s).
Proof.
  unfold ck. induction s as [|x s IH]; intros [|i] H E; cbn in *; try lia.
  - subst x. auto.
  - rewrite IH; auto; lia.
Qed.
Lemma ones_clear : forall s i, i < length s -> ck s i = true -> S (ones (set_bit s i false)) = ones s.
Proof.
  unfold ck. induction s as [|x s IH]; intros [|i] H E; cbn in *; try lia.
  - subst x. auto.
  - rewrite <- (IH i); auto; lia.
Qed.
Lemma ones_zero : forall n, ones (repeat false n) = 0.
Proof. induction n; cbn; auto. Qed.
Lemma ck_zero : forall n i, ck (repeat false n) i = false.
Proof. unfold ck. induction n; intros [|i]; cbn; auto. Qed.
Lemma begidx_in : forall s, begidx s < length s -> ck s (begidx s) = true.
Proof. unfold ck. induction s as [|[] s IH]; cbn; intros H; auto; try lia. apply IH. lia. Qed.
Lemma begidx_none : forall s, length s <= begidx s -> forall i, ck s i = false.
Proof. unfold ck. induction s as [|[] s IH]; cbn; intros H [|i]; auto; try lia. apply IH. lia. Qed.
Lemma begidx_le : forall s, begidx s <= length s.
Proof. induction s as [|[] s IH]; cbn; lia. Qed.
Lemma ck_bound : forall s i, ck s i = true -> i < length s.
Proof. unfold ck. intros s i H. destruct (Nat.lt_ge_cases i (length s)); auto. rewrite nth_overflow in H; auto. discriminate. Qed.
Lemma members_in : forall s i, In i (members s) <-> ck s i = true.
Proof.
  intros s i. unfold members. rewrite filter_In, in_seq. split; [tauto|]. intros H. split; auto. apply ck_bound in H. lia.
Qed.
Lemma begidx_single : forall n e, e < n -> begidx (set_bit (repeat false n) e true) = e.
Proof. induction n as [|n IH]; intros [|e] H; cbn; auto; try lia. rewrite IH; auto. lia. Qed.

Section Views.
Variable M : nat.
Notation size := (M * M * M).
Notation continuations := (continuations M).

Definition valid (v : nat * nat * nat) : Prop := let '(a, b, d) := v in a < M /\ b < M /\ d < M.
Notation config := (pc_config_of_enum_idx M).

Lemma enum_place : forall v, enum_idx_of_pc_config M v = place M v.
Proof. intros ((a & b) & d). unfold enum_idx_of_pc_config, place. cbn. nia. Qed.

Lemma config_place : forall v, valid v -> config (place M v) = v.
Proof.
  intros ((a & b) & d) (Ha & Hb & Hd). unfold pc_config_of_enum_idx, place. cbn [state_of_index prod nth].
  rewrite !Nat.mul_1_r.
  replace ((b * M + a) * M + d) with (b * (M * M) + (a * M + d)) by nia.
  assert (K : a * M + d < M * M) by nia.
  replace ((b * (M * M) + (a * M + d)) / (M * M)) with b by (apply (Nat.div_unique _ _ _ (a * M + d)); lia).
  replace ((b * (M * M) + (a * M + d)) mod (M * M)) with (a * M + d) by (apply (Nat.mod_unique _ _ b); lia).
  replace ((a * M + d) / M) with a by (apply (Nat.div_unique _ _ _ d); lia).
  replace ((a * M + d) mod M) with d by (apply (Nat.mod_unique _ _ a); lia).
  rewrite Nat.div_1_r. auto.
Qed.

Lemma place_bound : forall v, valid v -> place M v < size.
Proof. intros ((a & b) & d) (Ha & Hb & Hd). unfold place. assert (b * M + a < M * M) by nia. nia. Qed.

Lemma place_config : forall e, e < size -> valid (config e) /\ place M (config e) = e.
Proof.
  intros e He. unfold pc_config_of_enum_idx, place. cbn [state_of_index prod nth]. rewrite !Nat.mul_1_r.
  assert (HM : M <> 0) by (intros ->; cbn in He; lia).
  assert (HMM : M * M <> 0) by nia.
  rewrite Nat.div_1_r.
  pose proof (Nat.div_mod e (M * M) HMM) as D1. pose proof (Nat.mod_upper_bound e (M * M) HMM) as D2.
  pose proof (Nat.div_mod (e mod (M * M)) M HM) as D3. pose proof (Nat.mod_upper_bound (e mod (M * M)) M HM) as D4.
  set (q := e / (M * M)) in *. set (r := e mod (M * M)) in *. set (q' := r / M) in *. set (r' := r mod M) in *.
  split; [|nia]. split; [nia|]. split; [|auto]. nia.
Qed.

(** * Steps and walks *)
Definition step (s : bits) (e f : nat) : Prop := In f (continuations e s).

Lemma step_iff : forall s v f, valid v -> (step s (place M v) f <->
  exists t, t < M /\ f = place M (snd (fst v), snd v, t) /\ ck s f = true).
Proof.
  intros s v f Hv. unfold step, BiringModel.continuations. rewrite (config_place v Hv). destruct v as ((a & b) & d). cbn [fst snd].
  rewrite filter_In, in_map_iff. split.
  - intros ((t & E & Ht) & H). apply in_seq in Ht. exists t. rewrite enum_place in E. split; [lia|]. auto.
  - intros (t & Ht & E & H). split; auto. exists t. rewrite enum_place. split; auto. apply in_seq. lia.
Qed.

Lemma step_ck : forall s e f, step s e f -> ck s f = true.
Proof.
  intros s e f H. unfold step, BiringModel.continuations in H. destruct (config e) as ((a & b) & d).
  apply filter_In in H. tauto.
Qed.

Fixpoint walk (s : bits) (k : nat) (e f : nat) : Prop :=
  match k with 0 => e = f | S k' => exists g, step s e g /\ walk s k' g f end.

Lemma walk_app : forall s i j e f g, walk s i e f -> walk s j f g -> walk s (i + j) e g.
Proof.
  intros s. induction i as [|i IH]; intros j e f g H1 H2; cbn in *; [subst; auto|].
  destruct H1 as (h & H1 & H3). exists h. split; auto. eauto.
Qed.

Lemma walk_snoc : forall s k e f g, walk s k e f -> step s f g -> walk s (S k) e g.
Proof. intros s k e f g H1 H2. replace (S k) with (k + 1) by lia. apply (walk_app s k 1 e f g H1). exists g. cbn. auto. Qed.

Lemma walk_last : forall s k e g, walk s (S k) e g -> exists f, walk s k e f /\ step s f g.
Proof.
  intros s. induction k as [|k IH]; intros e g (h & H1 & H2).
  - cbn in H2. subst. exists e. cbn. auto.
  - apply IH in H2. destruct H2 as (f & H2 & H3). exists f. split; auto. exists h. auto.
Qed.

Lemma walk_split : forall s i j e g, walk s (i + j) e g -> exists f, walk s i e f /\ walk s j f g.
Proof.
  intros s. induction i as [|i IH]; intros j e g H; cbn in *; [exists e; auto|].
  destruct H as (h & H1 & H2). apply IH in H2. destruct H2 as (f & H2 & H3). exists f. split; auto. exists h. auto.
Qed.

Lemma walk_ck : forall s k e f, walk s (S k) e f -> ck s f = true.
Proof. intros s k e f H. apply walk_last in H. destruct H as (g & _ & H). eapply step_ck; eauto. Qed.

Lemma walk_fun : forall s k e f, walk s k e f ->
  exists w, w 0 = e /\ w k = f /\ forall i, i < k -> step s (w i) (w (S i)).
Proof.
  intros s. induction k as [|k IH]; intros e f H; cbn in H.
  - subst. exists (fun _ => f). repeat split; auto. intros i Hi. lia.
  - destruct H as (g & H1 & H2). apply IH in H2. destruct H2 as (w & W1 & W2 & W3).
    exists (fun i => match i with 0 => e | S j => w j end). split; auto. split; auto.
    intros [|i] Hi; [rewrite W1; auto|]. apply W3. lia.
Qed.

(** * Rings *)
Variable S0 : bits.
Hypothesis Hlen : length S0 = size.

Lemma ring_walk : forall n x i, legit_ring M (in_table M S0) n x -> i < n ->
  walk S0 n (place M (view n x i)) (place M (view n x i)).
Proof.
  intros n x i (H1 & H2 & H3) Hi.
  assert (B : forall k, x (k mod n) < M) by (intros k; apply H2; apply Nat.mod_upper_bound; lia).
  assert (V : forall j, j < n -> valid (view n x j)) by (intros j Hj; unfold view, valid; split; [|split]; auto).
  assert (ST : forall j, j < n -> step S0 (place M (view n x j)) (place M (view n x ((j + 1) mod n)))).
  { intros j Hj. assert (J : (j + 1) mod n < n) by (apply Nat.mod_upper_bound; lia).
    apply step_iff; auto. exists (x (((j + 1) mod n + 1) mod n)). split; [auto|]. split; [|apply (H3 _ J)].
    unfold view. cbn [fst snd]. repeat f_equal.
    destruct (Nat.eq_dec (j + 1) n) as [E|E].
    - rewrite E, Nat.mod_same by lia. rewrite Nat.mod_small by lia. lia.
    - rewrite (Nat.mod_small (j + 1)) by lia. replace (j + 1 + n - 1) with (j + 1 * n) by lia.
      rewrite Nat.mod_add by lia. apply Nat.mod_small. auto. }
  assert (W : forall k j, j < n -> walk S0 k (place M (view n x j)) (place M (view n x ((j + k) mod n)))).
  { induction k as [|k IH]; intros j Hj; cbn [walk].
    - rewrite Nat.add_0_r, Nat.mod_small; auto.
    - exists (place M (view n x ((j + 1) mod n))). split; auto.
      replace (j + S k) with (j + 1 + k) by lia. rewrite <- (Nat.add_mod_idemp_l (j + 1) k n) by lia.
      apply IH. apply Nat.mod_upper_bound. lia. }
  specialize (W n i Hi). replace (i + n) with (i + 1 * n) in W by lia. rewrite Nat.mod_add, Nat.mod_small in W by lia. auto.
Qed.

Lemma walk_ring : forall n e, 1 <= n -> walk S0 n e e ->
  exists x, legit_ring M (in_table M S0) n x /\ view n x 0 = config e.
Proof.
  intros n e Hn HW.
  assert (Ke : ck S0 e = true) by (destruct n; [lia|]; eapply walk_ck; eauto).
  apply walk_fun in HW. destruct HW as (w & W0 & Wn & WS).
  assert (Kw : forall i, i <= n -> ck S0 (w i) = true).
  { intros [|i] Hi; [rewrite W0; auto|]. eapply step_ck. apply WS. lia. }
  assert (Bw : forall i, i <= n -> w i < size) by (intros i Hi; rewrite <- Hlen; apply ck_bound; auto).
  assert (Vw : forall i, i <= n -> valid (config (w i)) /\ place M (config (w i)) = w i) by (intros i Hi; apply place_config; auto).
  assert (Sw : forall i, i < n -> fst (fst (config (w (S i)))) = snd (fst (config (w i))) /\
                                  snd (fst (config (w (S i)))) = snd (config (w i))).
  { intros i Hi. destruct (Vw i ltac:(lia)) as (V1 & V2). specialize (WS i Hi). rewrite <- V2 in WS.
    apply step_iff in WS; auto. destruct WS as (t & Ht & E & _).
    assert (X : config (w (S i)) = (snd (fst (config (w i))), snd (config (w i)), t)).
    { rewrite E. apply config_place. destruct (config (w i)) as ((a & b) & d). unfold valid in *. cbn in *. tauto. }
    rewrite X. auto. }
  set (x := fun i => snd (fst (config (w i)))).
  assert (VX : forall i, i < n -> view n x i = config (w i)).
  { intros i Hi. unfold view.
    assert (A : x ((i + n - 1) mod n) = fst (fst (config (w i)))).
    { destruct i as [|i].
      - replace (0 + n - 1) with (n - 1) by lia. rewrite Nat.mod_small by lia. unfold x.
        destruct (Sw (n - 1) ltac:(lia)) as (X & _). replace (S (n - 1)) with n in X by lia.
        rewrite Wn, <- W0 in X. auto.
      - replace (S i + n - 1) with (i + 1 * n) by lia. rewrite Nat.mod_add, Nat.mod_small by lia. unfold x.
        destruct (Sw i ltac:(lia)) as (X & _). auto. }
    assert (B : x ((i + 1) mod n) = snd (config (w i))).
    { destruct (Sw i Hi) as (_ & X). destruct (Nat.eq_dec (i + 1) n) as [E|E].
      - rewrite E, Nat.mod_same by lia. unfold x. replace (S i) with n in X by lia. rewrite Wn, <- W0 in X. auto.
      - rewrite Nat.mod_small by lia. unfold x. replace (i + 1) with (S i) by lia. auto. }
    rewrite A, B. unfold x. destruct (config (w i)) as ((a & b) & d). auto. }
  exists x. split; [|rewrite VX by lia; rewrite W0; auto].
  split; [auto|]. split.
  - intros i Hi. unfold x. destruct (Vw i ltac:(lia)) as (V1 & _). destruct (config (w i)) as ((a & b) & d). cbn. apply V1.
  - intros i Hi. rewrite VX by auto. unfold in_table. destruct (Vw i ltac:(lia)) as (_ & V2). rewrite V2. apply Kw. lia.
Qed.
End Views.

(** * biring_legit_enum_idx *)
Section Legit.
Variable M : nat.
Variable s : bits.
Variable e : nat.
Hypothesis He : ck s e = true.
Notation step := (step M).
Notation walk := (walk M).

Lemma look_at_spec : forall conts cache frontier found cache' frontier',
  length cache = length s -> length frontier = length s ->
  (forall j, ck frontier j = true -> ck cache j = true) -> (forall j, In j conts -> j < length s) ->
  look_at e conts cache frontier = (found, cache', frontier') ->
  (found = true -> In e conts) /\
  (found = false -> ~ In e conts /\ length cache' = length s /\ length frontier' = length s /\
     (forall j, ck cache' j = true <-> ck cache j = true \/ In j conts) /\
     (forall j, ck frontier' j = true <-> ck frontier j = true \/ (In j conts /\ ck cache j = false)) /\
     ones cache' + ones frontier = ones cache + ones frontier').
Proof.
  induction conts as [|c conts IH]; intros cache frontier found cache' frontier' L1 L2 Hs Hb E; cbn [look_at] in E.
  - injection E as <- <- <-. split; [discriminate|]. intros _. cbn. repeat split; auto; try tauto; try lia.
  - destruct (Nat.eqb_spec c e) as [->|Hc].
    + injection E as <- <- <-. split; [left; auto|discriminate].
    + assert (Bc : c < length s) by (apply Hb; left; auto).
      destruct (ck cache c) eqn:Ec.
      * apply IH in E; auto; [|intros j Hj; apply Hb; right; auto]. destruct E as (E1 & E2). split; [right; auto|].
        intros F. destruct (E2 F) as (X1 & X2 & X3 & X4 & X5 & X6).
        split; [intros [|X]; auto|]. split; auto. split; auto. split; [|split; [|auto]].
        -- intros j. rewrite X4. cbn. split; [tauto|]. intros [X|[X|X]]; auto. subst. auto.
        -- intros j. rewrite X5. cbn. split; [tauto|]. intros [X|([X|X] & Y)]; auto. subst. congruence.
      * assert (Ef : ck frontier c = false).
        { destruct (ck frontier c) eqn:Y; auto. apply Hs in Y. congruence. }
        apply IH in E; try (rewrite set_bit_length; auto);
          [|intros j; rewrite !ck_set_bit by lia; destruct (c =? j); auto|intros j Hj; apply Hb; right; auto].
        destruct E as (E1 & E2). split; [right; auto|].
        intros F. destruct (E2 F) as (X1 & X2 & X3 & X4 & X5 & X6).
        split; [intros [|X]; auto|]. split; auto. split; auto. split; [|split].
        -- intros j. rewrite X4, ck_set_bit by lia. cbn. destruct (Nat.eqb_spec c j); [subst; tauto|].
           split; [tauto|]. intros [X|[X|X]]; auto; congruence.
        -- intros j. rewrite X5, !ck_set_bit by lia. cbn. destruct (Nat.eqb_spec c j); [subst; tauto|].
           split; [tauto|]. intros [X|([X|X] & Y)]; auto; congruence.
        -- rewrite !ones_set in X6 by (auto; lia). lia.
Qed.

Lemma legit_loop_spec : forall fuel cache frontier,
  length cache = length s -> length frontier = length s ->
  (forall j, ck frontier j = true -> ck cache j = true) -> ck cache e = true ->
  (forall j, ck cache j = true -> exists k, walk s k e j) ->
  (forall j, ck cache j = true -> ck frontier j = false -> forall g, step s j g -> ck cache g = true /\ g <> e) ->
  length s - ones cache + ones frontier <= fuel ->
  exists b, legit_loop M fuel s e (begidx frontier) cache frontier = Some b /\
    (b = true <-> exists k, walk s (S k) e e).
Proof.
  assert (Fin : forall cache, ck cache e = true ->
    (forall j, ck cache j = true -> forall g, step s j g -> ck cache g = true /\ g <> e) ->
    ~ exists k, walk s (S k) e e).
  { intros cache Ke Hc (k & H). apply walk_last in H. destruct H as (f & H1 & H2).
    assert (X : forall k j f, ck cache j = true -> walk s k j f -> ck cache f = true).
    { clear - Hc. induction k as [|k IH]; intros j f Kj H; cbn in H; [subst; auto|].
      destruct H as (g & H1 & H2). apply (IH g f); auto. apply (Hc j Kj g H1). }
    apply (Hc f (X k e f Ke H1) e H2). auto. }
  induction fuel as [|fuel IH]; intros cache frontier L1 L2 Hs Ke Hr Hd Hf; cbn [legit_loop].
  - destruct (begidx frontier <? length s) eqn:E.
    + apply Nat.ltb_lt in E. rewrite <- L2 in E. apply begidx_in in E.
      assert (Y : ones frontier <> 0).
      { rewrite <- (ones_clear frontier (begidx frontier)); auto. apply ck_bound; auto. }
      lia.
    + apply Nat.ltb_ge in E. rewrite <- L2 in E. exists false. split; auto. split; [discriminate|].
      intros H. exfalso. apply (Fin cache Ke); auto. intros j Kj. apply Hd; auto. apply begidx_none. auto.
  - destruct (begidx frontier <? length s) eqn:E.
    + apply Nat.ltb_lt in E. set (idx := begidx frontier) in *.
      assert (Ki : ck frontier idx = true) by (apply begidx_in; fold idx; lia).
      destruct (look_at e (continuations M idx s) cache (set_bit frontier idx false)) as ((found & cache') & frontier') eqn:El.
      apply look_at_spec in El; auto.
      2:{ rewrite set_bit_length. auto. }
      2:{ intros j. rewrite ck_set_bit by lia. destruct (idx =? j); [discriminate|auto]. }
      2:{ intros j Hj. apply ck_bound. eapply step_ck. exact Hj. }
      destruct El as (E1 & E2). destruct found.
      * exists true. split; auto. split; auto. intros _. destruct (Hr idx (Hs idx Ki)) as (k & W).
        exists k. eapply walk_snoc; [exact W|]. apply E1. auto.
      * destruct (E2 eq_refl) as (X1 & X2 & X3 & X4 & X5 & X6). apply IH; auto.
        -- intros j Hj. apply X5 in Hj. apply X4. destruct Hj as [Hj|(Hj & _)]; auto.
           rewrite ck_set_bit in Hj by lia. destruct (idx =? j); [discriminate|]. left. auto.
        -- apply X4. auto.
        -- intros j Hj. apply X4 in Hj. destruct Hj as [Hj|Hj]; auto.
           destruct (Hr idx (Hs idx Ki)) as (k & W). exists (S k). eapply walk_snoc; [exact W|]. exact Hj.
        -- intros j Kj Nj g Hg.
           assert (Nf : ~ (ck (set_bit frontier idx false) j = true \/ In j (continuations M idx s) /\ ck cache j = false)).
           { intros Y. apply X5 in Y. congruence. }
           assert (Kc : ck cache j = true).
           { apply X4 in Kj. destruct Kj as [Kj|Kj]; [exact Kj|]. destruct (ck cache j) eqn:Y; [reflexivity|]. exfalso. apply Nf. right. split; [exact Kj|first [reflexivity|exact Y]]. }
           destruct (Nat.eq_dec idx j) as [<-|Hj].
           ++ split; [apply X4; right; exact Hg|]. intros ->. apply X1. exact Hg.
           ++ assert (Fj : ck frontier j = false).
              { destruct (ck frontier j) eqn:Y; auto. exfalso. apply Nf. left. rewrite ck_set_bit by lia.
                destruct (Nat.eqb_spec idx j); [congruence|auto]. }
              destruct (Hd j Kc Fj g Hg) as (Y1 & Y2). split; auto. apply X4. auto.
        -- pose proof (ones_clear frontier idx ltac:(lia) Ki) as Y. pose proof (ones_le cache') as Z.
           pose proof (ones_le cache) as Z'. lia.
    + apply Nat.ltb_ge in E. rewrite <- L2 in E. exists false. split; auto. split; [discriminate|].
      intros H. exfalso. apply (Fin cache Ke); auto. intros j Kj. apply Hd; auto. apply begidx_none. auto.
Qed.

Lemma legit_enum_idx_spec : exists b, legit_enum_idx M s e = Some b /\ (b = true <-> exists k, walk s (S k) e e).
Proof.
  pose proof (ck_bound _ _ He) as Hb. unfold legit_enum_idx.
  set (z := set_bit (repeat false (length s)) e true).
  assert (Lr : length (repeat false (length s)) = length s) by apply repeat_length.
  assert (Kz : forall j, ck z j = true -> e = j).
  { intros j. unfold z. rewrite ck_set_bit by lia. destruct (Nat.eqb_spec e j); auto. rewrite ck_zero. discriminate. }
  assert (Ke : ck z e = true) by (unfold z; rewrite ck_set_bit by lia; rewrite Nat.eqb_refl; auto).
  pose proof (begidx_single (length s) e Hb) as Q. fold z in Q.
  assert (R : exists b, legit_loop M (length s) s e (begidx z) z z = Some b /\ (b = true <-> exists k, walk s (S k) e e)).
  { apply legit_loop_spec; auto.
    - unfold z. rewrite set_bit_length. auto.
    - unfold z. rewrite set_bit_length. auto.
    - intros j Hj. exists 0. cbn. auto.
    - intros j H1 H2. congruence.
    - unfold z. rewrite ones_set, ones_zero by (auto using ck_zero; lia). lia. }
  rewrite Q in R. exact R.
Qed.
End Legit.
