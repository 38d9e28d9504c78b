(** What biring_sat_ck answers. *)
From Coq Require Import List Arith Bool Lia Factorial.
From Verif Require Import Radix BiringModel BiringSpec BiringProofs BiringProofs2.
Import ListNotations.

Lemma pigeon : forall (A : Type) (dec : forall a b : A, {a = b} + {a <> b}) (f : nat -> A) (l : list A),
  (forall i, i <= length l -> In (f i) l) -> exists p q, p < q /\ q <= length l /\ f p = f q.
Proof.
  intros A dec f l H.
  assert (X : forall k, NoDup (map f (rev (seq 0 k))) \/ exists p q, p < q /\ q < k /\ f p = f q).
  { induction k as [|k [IH|(p & q & H1 & H2 & H3)]].
    - left. constructor.
    - rewrite seq_S, rev_app_distr. cbn [rev app map plus].
      destruct (in_dec dec (f k) (map f (rev (seq 0 k)))) as [I|I].
      + right. apply in_map_iff in I. destruct I as (p & E & I). apply in_rev, in_seq in I.
        exists p, k. split; [lia|]. split; [lia|auto].
      + left. constructor; auto.
    - right. exists p, q. split; auto. }
  destruct (X (S (length l))) as [ND|(p & q & H1 & H2 & H3)].
  - exfalso. apply NoDup_incl_length with (l' := l) in ND.
    + rewrite map_length, rev_length, seq_length in ND. lia.
    + intros a Ha. apply in_map_iff in Ha. destruct Ha as (i & <- & Hi). apply in_rev, in_seq in Hi. apply H. lia.
  - exists p, q. split; auto. split; [lia|auto].
Qed.

Section Sat.
Variable M : nat.
Variable s : bits.
Notation walk := (walk M s).
Notation n := (length s).

Lemma tables_length : forall m, length (tables m) = 2 ^ m.
Proof. induction m as [|m IH]; auto. cbn [tables Nat.pow]. rewrite app_length, !map_length. unfold bits in *. rewrite IH. lia. Qed.

Lemma walk_pow : forall k u a, walk k u u -> walk (a * k) u u.
Proof. intros k u a W. induction a as [|a IH]; [reflexivity|]. apply (walk_app M s k (a * k) u u u W IH). Qed.

(** closed walks of all large lengths make the iterates constant *)
Lemma iter_const : forall e L, e < n -> (forall j, L <= j -> walk j e e) ->
  exists i, ck (iter M s (S i) (single n e)) e = true /\ iter M s i (single n e) = iter M s (S i) (single n e).
Proof.
  intros e L He HL. set (it := fun k => iter M s k (single n e)).
  destruct (pigeon bits (list_eq_dec bool_dec) it (tables n)) as (p & q & Hpq & _ & E).
  { intros i _. pose proof (tables_in (it i)) as X. unfold it in X at 2. rewrite (iter_length M s e i) in X. exact X. }
  set (d := q - p).
  assert (Hd : d >= 1) by (unfold d; lia).
  assert (P1 : forall k, p <= k -> it (k + d) = it k).
  { intros k Hk. induction Hk as [|k Hk IH]; [unfold d; replace (p + (q - p)) with q by lia; auto|].
    unfold it in *. cbn [iter plus]. rewrite IH. auto. }
  assert (P : forall t k, p <= k -> it (k + t * d) = it k).
  { induction t as [|t IH]; intros k Hk; [rewrite Nat.mul_0_l, Nat.add_0_r; auto|].
    replace (k + S t * d) with (k + t * d + d) by (cbn; lia). rewrite P1 by lia. auto. }
  exists (p + L). fold (it (p + L)) (it (S (p + L))). split.
  - apply iter_ck; auto. apply HL. lia.
  - apply bits_ext; [unfold it; rewrite !iter_length; auto|].
    assert (D : forall i j f, p + L <= i -> p + L <= j -> ck (it i) f = true -> ck (it j) f = true).
    { intros i j f Hi Hj K. unfold it in K. apply iter_ck in K; auto.
      rewrite <- (P (i + L) j) by lia. apply iter_ck; auto.
      replace (j + (i + L) * d) with ((j + (i + L) * d - i) + i) by nia.
      apply (walk_app M s _ _ e e f); auto. apply HL. nia. }
    intros f. destruct (ck (it (p + L)) f) eqn:A, (ck (it (S (p + L))) f) eqn:B; auto.
    + apply (D _ (S (p + L))) in A; [congruence|lia|lia].
    + apply (D _ (p + L)) in B; [congruence|lia|lia].
Qed.

(** if closed walks exist for all large lengths, one node has them all *)
Lemma one_node : forall N, (forall m, N <= m -> exists e, walk m e e) -> exists u L, ck s u = true /\ forall j, L <= j -> walk j u u.
Proof.
  intros N H. set (F := fact n). assert (HF : 1 <= F) by apply lt_O_fact.
  set (m := 1 + F * (N + n)). assert (Hm : n < m /\ N <= m) by (unfold m; nia).
  destruct (H m ltac:(lia)) as (e & W).
  assert (Ke : ck s e = true). { unfold m in W. apply walk_ck in W. auto. }
  pose proof W as W'. apply walk_fun in W'. destruct W' as (w & W0 & Wm & WS).
  assert (Kw : forall i, i <= m -> ck s (w i) = true).
  { intros [|i] Hi; [rewrite W0; auto|]. eapply step_ck. apply WS. lia. }
  destruct (pigeon nat Nat.eq_dec w (seq 0 n)) as (p & q & Hpq & Hq & E).
  { intros i Hi. rewrite seq_length in Hi. apply in_seq. assert (X : ck s (w i) = true) by (apply Kw; lia).
    apply ck_bound in X. lia. }
  rewrite seq_length in Hq.
  assert (Seg : forall d i, i + d <= m -> walk d (w i) (w (i + d))).
  { induction d as [|d IH]; intros i Hi; [rewrite Nat.add_0_r; reflexivity|].
    exists (w (S i)). split; [apply WS; lia|]. replace (i + S d) with (S i + d) by lia. apply IH. lia. }
  set (u := w p) in *. set (l := q - p).
  assert (Wl : walk l u u).
  { unfold u. pose proof (Seg l p ltac:(unfold l; lia)) as X. unfold l in *. replace (p + (q - p)) with q in X by lia. rewrite <- E in X. exact X. }
  assert (Wu : walk m u u).
  { replace m with ((m - p) + p) by lia. apply (walk_app M s (m - p) p u (w 0) u).
    - pose proof (Seg (m - p) p ltac:(lia)) as X. replace (p + (m - p)) with m in X by lia. rewrite Wm, <- W0 in X. exact X.
    - apply (Seg p 0). lia. }
  assert (Hl : 1 <= l <= n) by (unfold l; lia).
  assert (Dv : exists c, F = c * l).
  { unfold F. clear - Hl. destruct Hl as (H1 & H2). induction H2 as [|k H2 (c & IH)].
    - destruct l as [|l']; [lia|]. exists (fact l'). cbn. lia.
    - exists (S k * c). cbn [fact]. change (fact k + k * fact k) with (S k * fact k). rewrite IH. lia. }
  destruct Dv as (c & Dv).
  exists u, (l * m). split; [apply Kw; lia|]. intros j Hj.
  pose proof (Nat.div_mod j l ltac:(lia)) as D1. pose proof (Nat.mod_upper_bound j l ltac:(lia)) as D2.
  set (a := j mod l) in *. set (b := j / l) in *.
  assert (Am : a * m = a + (a * c * (N + n)) * l) by (unfold m; rewrite Dv; ring).
  assert (Ha : a * m <= l * m) by (apply Nat.mul_le_mono_r; lia).
  assert (J : j = a * m + (b - a * c * (N + n)) * l).
  { rewrite Am. assert (X : a * c * (N + n) * l <= b * l) by lia.
    apply Nat.mul_le_mono_pos_r in X; [|lia].
    rewrite Nat.mul_sub_distr_r. lia. }
  rewrite J. apply (walk_app M s _ _ u u u); apply walk_pow; auto.
Qed.

Lemma true_sat_spec : forall fuel, 2 ^ n < fuel ->
  exists r, true_biring_sat_ck M fuel s = Some r /\
  match r with
  | Some m => exists e k, m = S k /\ ck s e = true /\ forall j, k <= j -> walk j e e
  | None => ~ exists N, forall m, N <= m -> exists e, walk m e e
  end.
Proof.
  intros fuel Hf.
  assert (X : forall es, (forall e, In e es -> ck s e = true) -> exists r, true_sat_from M fuel s es = Some r /\
    match r with
    | Some m => exists e k, m = S k /\ ck s e = true /\ forall j, k <= j -> walk j e e
    | None => forall e, In e es -> forall L, ~ forall j, L <= j -> walk j e e
    end).
  { induction es as [|e es IH]; intros Hes; cbn [true_sat_from].
    - exists None. split; auto.
    - assert (Ke : ck s e = true) by (apply Hes; left; auto). pose proof (ck_bound _ _ Ke) as Be.
      destruct (sat_loop M fuel s e [] (single n e)) as [[m|]|] eqn:E.
      + exists (Some m). split; auto.
        destruct (sat_loop_sound M s fuel e 0 [] Be eq_refl m E) as (k & E1 & E2). exists e, k. auto.
      + destruct IH as (r & R1 & R2); [intros; apply Hes; right; auto|]. exists r. split; auto.
        destruct r as [m|]; auto. intros e' [<-|He'] L HL; [|apply (R2 e' He' L HL)].
        destruct (iter_const e L Be HL) as (i & I).
        refine (sat_loop_none M s fuel e 0 [] Be _ _ E i I).
        * intros v. split; [intros []|intros (i' & H & _); lia].
        * intros i' H. lia.
      + exfalso. refine (sat_loop_total M s fuel e (single n e) [] (single_length s e) (NoDup_nil _) _ _ E).
        * intros v [].
        * cbn [length]. rewrite tables_length. lia. }
  destruct (X (members s)) as (r & R1 & R2); [intros e; apply members_in|].
  exists r. split; auto. destruct r as [m|]; auto.
  intros (N & H). apply one_node in H. destruct H as (u & L & K & H). apply (R2 u) with (L := L); auto. apply members_in. auto.
Qed.

Lemma mark_steps_length : forall m e k pre sats, length (mark_steps M s e k m pre sats) = length sats.
Proof.
  induction m as [|m IH]; intros e k pre sats; cbn [mark_steps]; auto. rewrite IH. destruct (ck _ e); auto. apply set_bit_length.
Qed.

Lemma mark_steps_ck : forall m e k sats j, e < n -> S k + m <= length sats ->
  (ck (mark_steps M s e (S k) m (iter M s k (single n e)) sats) j = true <->
   ck sats j = true \/ (S k <= j /\ j < S k + m /\ walk j e e)).
Proof.
  induction m as [|m IH]; intros e k sats j He Hl; cbn [mark_steps].
  - split; [tauto|]. intros [H|H]; [auto|lia].
  - change (img M s (iter M s k (single n e))) with (iter M s (S k) (single n e)).
    pose proof (iter_ck M s e (S k) e He) as W.
    destruct (ck (iter M s (S k) (single n e)) e) eqn:C.
    + rewrite IH by (auto; rewrite set_bit_length; lia). rewrite ck_set_bit by lia.
      destruct (Nat.eqb_spec (S k) j) as [<-|Hj].
      * split; [|tauto]. intros _. right. split; [lia|]. split; [lia|]. tauto.
      * split; (intros [H|(H1 & H2 & H3)]; [tauto|right; split; [lia|split; [lia|auto]]]).
    + rewrite IH by (auto; lia). split; (intros [H|(H1 & H2 & H3)]; [tauto|right]).
      * split; [lia|split; [lia|auto]].
      * split; [|split; [lia|auto]]. destruct (Nat.eq_dec j (S k)) as [->|]; [|lia]. apply W in H3. discriminate.
Qed.

Lemma lower_spec : forall N0 sats N, 1 <= N0 -> lower N0 sats N <= N /\
  (forall j, lower N0 sats N < j -> j <= N -> ck sats j = true) /\
  (lower N0 sats N < N0 \/ ck sats (lower N0 sats N) = false).
Proof.
  intros N0 sats N H0. induction N as [|N (I1 & I2 & I3)]; cbn [lower].
  - split; auto. split; [intros; lia|]. left. lia.
  - destruct (N0 <=? S N) eqn:A; cbn [andb].
    + destruct (ck sats (S N)) eqn:B.
      * split; [lia|]. split; auto. intros j H1 H2. destruct (Nat.eq_dec j (S N)) as [->|]; auto. apply I2; auto. lia.
      * split; [lia|]. split; [intros; lia|]. right. auto.
    + apply Nat.leb_gt in A. split; [lia|]. split; [intros; lia|]. left. lia.
Qed.

Lemma small_sizes_spec : forall N0 es sats N, 1 <= N0 -> N0 <= N -> N < length sats ->
  (forall e, In e es -> ck s e = true) ->
  (forall j, ck sats j = true -> exists e, walk j e e) ->
  (forall j, N < j -> exists e, walk j e e) ->
  (forall e, ck s e = true -> In e es \/ forall j, 1 <= j -> j <= N -> walk j e e -> ck sats j = true) ->
  (es <> [] \/ ck sats N = false) ->
  (small_sizes M s N0 es sats N = true <-> forall j, N0 <= j -> exists e, walk j e e).
Proof.
  intros N0. induction es as [|e es IH]; intros sats N H0 HN Hl Hes A B C D; cbn [small_sizes].
  - split; [discriminate|]. intros H. exfalso. destruct D as [D|D]; [congruence|].
    destruct (H N HN) as (e & W). assert (K : ck s e = true) by (destruct N; [lia|]; eapply walk_ck; exact W).
    destruct (C e K) as [[]|X]. rewrite (X N) in D; auto; [discriminate|lia].
  - assert (Ke : ck s e = true) by (apply Hes; left; auto). pose proof (ck_bound _ _ Ke) as Be.
    set (sats' := mark_steps M s e 1 N (single n e) sats).
    assert (K' : forall j, ck sats' j = true <-> ck sats j = true \/ (1 <= j /\ j < 1 + N /\ walk j e e)).
    { intros j. apply (mark_steps_ck N e 0 sats j Be). lia. }
    assert (L' : length sats' = length sats) by apply mark_steps_length.
    destruct (lower_spec N0 sats' N H0) as (I1 & I2 & I3). set (N' := lower N0 sats' N) in *.
    assert (A' : forall j, ck sats' j = true -> exists e, walk j e e).
    { intros j Hj. apply K' in Hj. destruct Hj as [Hj|(_ & _ & Hj)]; eauto. }
    assert (B' : forall j, N' < j -> exists e, walk j e e).
    { intros j Hj. destruct (Nat.le_gt_cases j N); auto. }
    destruct (N' <? N0) eqn:E.
    + apply Nat.ltb_lt in E. split; auto. intros _ j Hj. apply B'. lia.
    + apply Nat.ltb_ge in E. apply IH; auto; try lia.
      * intros e' He'. apply Hes. right. auto.
      * intros e' Ke'. destruct (C e' Ke') as [[<-|H]|H]; auto.
        -- right. intros j J1 J2 J3. apply K'. right. split; [lia|]. split; [lia|auto].
        -- right. intros j J1 J2 J3. apply K'. left. apply H; auto. lia.
      * right. destruct I3 as [I3|I3]; auto. lia.
Qed.

Lemma biring_sat_ck_spec : forall fuel N0, 2 ^ n < fuel -> exists b, biring_sat_ck M fuel s N0 = Some b /\
  (b = true <-> if N0 =? 0 then exists N, forall j, N <= j -> exists e, walk j e e
                else forall j, N0 <= j -> exists e, walk j e e).
Proof.
  intros fuel N0 Hf. unfold biring_sat_ck. destruct (true_sat_spec fuel Hf) as (r & -> & R). destruct r as [m|].
  - destruct R as (e & k & -> & Ke & We). replace (S k - 1) with k by lia. destruct (Nat.eqb_spec N0 0) as [->|H0].
    + exists true. split; auto. split; auto. intros _. exists k. eauto.
    + cbn [orb]. destruct (k <? N0) eqn:E.
      * apply Nat.ltb_lt in E. exists true. split; auto. split; auto. intros _ j Hj. exists e. apply We. lia.
      * apply Nat.ltb_ge in E. eexists. split; [reflexivity|].
        assert (Lr : length (repeat false (k + 1)) = k + 1) by apply repeat_length.
        apply small_sizes_spec; try lia.
        -- intros e'. apply members_in.
        -- intros j. rewrite ck_zero. discriminate.
        -- intros j Hj. exists e. apply We. lia.
        -- intros e' He'. left. apply members_in. auto.
        -- right. apply ck_zero.
  - exists false. split; auto. split; [discriminate|]. intros H. exfalso. apply R.
    destruct (Nat.eqb_spec N0 0); eauto.
Qed.
End Sat.
