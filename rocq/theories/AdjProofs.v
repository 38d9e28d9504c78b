(** Refinement proofs for the adjacency list. *)
From Coq Require Import List Arith Lia Bool.
From Verif Require Import FinLib UniProofs LivelockProofs TileModel AdjModel.
Import ListNotations.

(** ** Arrays cut into segments *)
Definition off_of (segs : list (list nat)) (x : nat) : nat := length (concat (firstn x segs)).

Lemma off_cons : forall s segs x, off_of (s :: segs) (S x) = length s + off_of segs x.
Proof. intros. unfold off_of. simpl. apply app_length. Qed.

Lemma seg_nth : forall segs x k, x < length segs -> k < length (nth x segs []) ->
  nth (off_of segs x + k) (concat segs) 0 = nth k (nth x segs []) 0 /\
  off_of segs x + k < length (concat segs).
Proof.
  induction segs as [|s segs IH]; intros x k Hx Hk; [simpl in Hx; lia|].
  destruct x; simpl concat.
  - unfold off_of. simpl in *. rewrite app_nth1, app_length by auto. split; auto. lia.
  - rewrite off_cons. simpl in Hx, Hk. destruct (IH x k ltac:(lia) Hk) as [E L].
    rewrite app_nth2, app_length by lia. split; [|lia]. simpl nth. rewrite <- E. f_equal. lia.
Qed.

Lemma upd_app2 : forall A (l1 l2 : list A) i x, upd (l1 ++ l2) (length l1 + i) x = l1 ++ upd l2 i x.
Proof. induction l1; intros; simpl; auto. f_equal. auto. Qed.

Lemma upd_app1 : forall A (l1 l2 : list A) i x, i < length l1 -> upd (l1 ++ l2) i x = upd l1 i x ++ l2.
Proof. induction l1; intros; simpl in *; [lia|]. destruct i; simpl; auto. f_equal. apply IHl1. lia. Qed.

Lemma seg_upd : forall segs x k v, x < length segs -> k < length (nth x segs []) ->
  upd (concat segs) (off_of segs x + k) v = concat (upd segs x (upd (nth x segs []) k v)).
Proof.
  induction segs as [|s segs IH]; intros x k v Hx Hk; [simpl in Hx; lia|].
  destruct x; simpl in Hx, Hk.
  - unfold off_of. simpl. apply upd_app1; auto.
  - rewrite off_cons. cbn [concat upd nth].
    replace (length s + off_of segs x + k) with (length s + (off_of segs x + k)) by lia.
    rewrite upd_app2. f_equal. apply IH; auto. lia.
Qed.

Lemma off_upd : forall segs x s y, length s = length (nth x segs []) ->
  off_of (upd segs x s) y = off_of segs y.
Proof.
  induction segs as [|s0 segs IH]; intros x s y H; auto.
  destruct x, y; simpl in *; auto.
  - rewrite !off_cons. lia.
  - rewrite !off_cons. rewrite IH; auto.
Qed.

(** ** Invariant: the committed graph is a list of segments with degrees *)
Definition rep (g : adjlist) (segs : list (list nat)) (degs : list nat) : Prop :=
  acommitted g = true /\ aarcs g = concat segs /\
  length degs = length segs /\ length (anodes g) = length segs /\
  forall x, x < length segs ->
    nth x (anodes g) (0, 0) = (off_of segs x, nth x degs 0) /\
    nth x degs 0 <= length (nth x segs []).

Lemma rep_arcs : forall g segs degs x, rep g segs degs -> x < length segs ->
  adj_arcs g x = firstn (nth x degs 0) (nth x segs []).
Proof.
  intros g segs degs x (_ & Ha & Ld & Ln & H) Hx. destruct (H x Hx) as [E Hd].
  unfold adj_arcs, adj_degree, adj_arc. rewrite E. cbn [fst snd]. rewrite Ha.
  apply list_ext_nth with (d := 0).
  - rewrite map_length, seq_length, firstn_length. lia.
  - rewrite map_length, seq_length. intros i Hi.
    rewrite (nth_indep _ 0 ((fun i => nth (off_of segs x + i) (concat segs) 0) 0))
      by (rewrite map_length, seq_length; auto).
    rewrite (map_nth (fun i => nth (off_of segs x + i) (concat segs) 0)).
    rewrite seq_nth by auto. simpl plus.
    destruct (seg_nth segs x i Hx ltac:(lia)) as [-> _].
    rewrite <- (firstn_skipn (nth x degs 0) (nth x segs [])) at 1.
    rewrite app_nth1; auto. rewrite firstn_length. lia.
Qed.

Lemma rep_add : forall g segs degs x y, rep g segs degs -> x < length segs ->
  nth x degs 0 < length (nth x segs []) ->
  exists g', adj_add g x y = Some g' /\
    rep g' (upd segs x (upd (nth x segs []) (nth x degs 0) y)) (upd degs x (nth x degs 0 + 1)).
Proof.
  intros g segs degs x y (Hc & Ha & Ld & Ln & H) Hx Hcap. destruct (H x Hx) as [E Hd].
  unfold adj_add. rewrite E, Hc, Ha. destruct (seg_nth segs x (nth x degs 0) Hx Hcap) as [_ HL].
  apply Nat.ltb_lt in HL. rewrite HL. eexists. split; [reflexivity|].
  unfold set_degree. cbn [anodes acommitted aarcs]. rewrite E. cbn [fst].
  assert (Hlen : length (upd (nth x segs []) (nth x degs 0) y) = length (nth x segs [])) by apply upd_length.
  split; [auto|]. split; [apply seg_upd; auto|]. split; [rewrite !upd_length; auto|].
  split; [cbn; rewrite !upd_length; auto|].
  rewrite upd_length. intros z Hz. cbn [anodes]. rewrite off_upd by auto.
  destruct (Nat.eq_dec z x) as [->|Nz].
  - rewrite !nth_upd_same by lia. split; auto. lia.
  - rewrite !nth_upd_other by auto. auto.
Qed.

Lemma off_same_shape : forall segs segs' y, length segs = length segs' ->
  (forall z, length (nth z segs []) = length (nth z segs' [])) -> off_of segs y = off_of segs' y.
Proof.
  induction segs as [|s segs IH]; intros [|s' segs'] y L H; try discriminate; auto.
  destruct y; auto. rewrite !off_cons. pose proof (H 0) as H0. simpl in H0. rewrite H0. f_equal.
  apply IH; [auto|]. intros z. apply (H (S z)).
Qed.

Lemma firstn_S_nth : forall (l : list nat) p, p < length l -> firstn (S p) l = firstn p l ++ [nth p l 0].
Proof.
  induction l as [|a l IH]; intros p H; simpl in H; [lia|]. destruct p; auto.
  cbn [firstn app nth]. f_equal. apply IH. lia.
Qed.

Lemma skipn_nth_eq : forall (l l' : list nat) p, length l = length l' -> skipn p l = skipn p l' ->
  nth p l 0 = nth p l' 0.
Proof.
  intros l l' p L H.
  pose proof (nth_skipn' nat l p 0 0) as E1. pose proof (nth_skipn' nat l' p 0 0) as E2.
  rewrite Nat.add_0_r in *. congruence.
Qed.

Lemma skipn_tl : forall (l : list nat) p, skipn (S p) l = tl (skipn p l).
Proof. induction l as [|a l IH]; intros p; destruct p; auto. exact (IH p). Qed.

Lemma skipn_S_eq : forall (l l' : list nat) p, skipn p l = skipn p l' -> skipn (S p) l = skipn (S p) l'.
Proof. intros l l' p H. rewrite !skipn_tl. congruence. Qed.

Lemma firstn_upd_lt : forall (l : list nat) k p v, p <= k -> firstn p (upd l k v) = firstn p l.
Proof.
  induction l as [|a l IH]; intros k p v H; destruct k, p; simpl; auto; [lia|]. f_equal. apply IH. lia.
Qed.

Lemma skipn_upd_lt : forall (l : list nat) k p v, k < p -> skipn p (upd l k v) = skipn p l.
Proof.
  induction l as [|a l IH]; intros k p v H; destruct k, p; simpl; auto; try lia. apply IH. lia.
Qed.

Lemma del_loop_spec : forall dst x deg segs0, x < length segs0 -> deg <= length (nth x segs0 []) ->
  forall count p n segs,
  p + count = deg -> n <= p ->
  length segs = length segs0 ->
  (forall z, z <> x -> nth z segs [] = nth z segs0 []) ->
  length (nth x segs []) = length (nth x segs0 []) ->
  firstn (p - n) (nth x segs []) = filter (fun v => negb (v =? dst)) (firstn p (nth x segs0 [])) ->
  skipn p (nth x segs []) = skipn p (nth x segs0 []) ->
  exists segs' n', del_loop count (off_of segs0 x + p) n dst (concat segs) = (concat segs', n') /\
    length segs' = length segs0 /\
    (forall z, z <> x -> nth z segs' [] = nth z segs0 []) /\
    length (nth x segs' []) = length (nth x segs0 []) /\ n' <= deg /\
    firstn (deg - n') (nth x segs' []) = filter (fun v => negb (v =? dst)) (firstn deg (nth x segs0 [])).
Proof.
  intros dst x deg segs0 Hx Hdeg. induction count as [|count IH];
    intros p n segs Hp Hn Ls Ho Lx HF HS; cbn [del_loop].
  - exists segs, n. rewrite Nat.add_0_r in Hp. subst p. auto 10.
  - assert (HO : off_of segs0 x = off_of segs x).
    { apply off_same_shape; auto. intros z. destruct (Nat.eq_dec z x) as [->|Nz]; auto.
      rewrite Ho; auto. }
    destruct (seg_nth segs x p ltac:(lia) ltac:(lia)) as [E _]. rewrite <- HO in E.
    rewrite E. rewrite (skipn_nth_eq _ (nth x segs0 []) p) by auto.
    replace (S (off_of segs0 x + p)) with (off_of segs0 x + S p) by lia.
    set (v := nth p (nth x segs0 []) 0).
    assert (HF' : filter (fun v => negb (v =? dst)) (firstn (S p) (nth x segs0 [])) =
      filter (fun v => negb (v =? dst)) (firstn p (nth x segs0 [])) ++ (if v =? dst then [] else [v])).
    { rewrite firstn_S_nth by lia. rewrite filter_app. f_equal. fold v. simpl. destruct (v =? dst); auto. }
    destruct (Nat.eqb_spec v dst) as [Ev|Nv].
    + apply IH; auto; try lia.
      * replace (S p - (n + 1)) with (p - n) by lia. rewrite HF', HF, app_nil_r. auto.
      * apply skipn_S_eq; auto.
    + destruct (Nat.ltb_spec 0 n) as [Hn0|Hn0].
      * rewrite HO. replace (off_of segs x + p - n) with (off_of segs x + (p - n)) by lia.
        rewrite seg_upd by lia. rewrite <- HO. apply IH; try lia.
        -- rewrite upd_length. auto.
        -- intros z Hz. rewrite nth_upd_other by auto. auto.
        -- rewrite nth_upd_same by lia. rewrite upd_length. auto.
        -- rewrite nth_upd_same by lia. rewrite HF'. replace (S p - n) with (S (p - n)) by lia.
           rewrite firstn_S_nth by (rewrite upd_length; lia).
           rewrite firstn_upd_lt by lia. rewrite HF. rewrite nth_upd_same by lia. auto.
        -- rewrite nth_upd_same by lia. rewrite skipn_upd_lt by lia. apply skipn_S_eq; auto.
      * replace n with 0 in * by lia. apply IH; auto; try lia.
        -- rewrite Nat.sub_0_r in *. rewrite HF'. rewrite firstn_S_nth by lia.
           rewrite HF. f_equal. f_equal. apply skipn_nth_eq; auto.
        -- apply skipn_S_eq; auto.
Qed.

Lemma rep_del : forall g segs degs x y, rep g segs degs -> x < length segs ->
  exists segs' degs', rep (adj_del g x y) segs' degs' /\ length segs' = length segs /\
    (forall z, length (nth z segs' []) = length (nth z segs [])) /\
    (forall z, z <> x -> firstn (nth z degs' 0) (nth z segs' []) = firstn (nth z degs 0) (nth z segs [])) /\
    firstn (nth x degs' 0) (nth x segs' []) =
      filter (fun v => negb (v =? y)) (firstn (nth x degs 0) (nth x segs [])).
Proof.
  intros g segs degs x y (Hc & Ha & Ld & Ln & H) Hx. destruct (H x Hx) as [E Hd].
  destruct (del_loop_spec y x (nth x degs 0) segs Hx Hd (nth x degs 0) 0 0 segs)
    as (segs' & n' & ED & Ls & Ho & Lx & Hn' & HF); auto.
  unfold adj_del. rewrite E, Ha. rewrite Nat.add_0_r in ED. rewrite ED.
  assert (Hsh : forall z, length (nth z segs' []) = length (nth z segs [])).
  { intros z. destruct (Nat.eq_dec z x) as [->|Nz]; auto. rewrite Ho; auto. }
  exists segs', (upd degs x (nth x degs 0 - n')). split; [|split; [auto|split; [auto|split]]].
  - unfold set_degree. cbn [anodes acommitted aarcs]. rewrite E. cbn [fst].
    split; [auto|]. split; [auto|]. split; [rewrite upd_length; lia|].
    cbn [anodes]. split; [rewrite upd_length; lia|].
    intros z Hz. rewrite (off_same_shape segs' segs) by auto. destruct (Nat.eq_dec z x) as [->|Nz].
    + rewrite !nth_upd_same by lia. split; auto. rewrite Hsh. lia.
    + rewrite !nth_upd_other by auto. rewrite Hsh. apply H. lia.
  - intros z Nz. rewrite nth_upd_other by auto. rewrite Ho by auto. auto.
  - rewrite nth_upd_same by lia. auto.
Qed.

Lemma rep_set_zero : forall g segs degs x, rep g segs degs -> x < length segs ->
  rep (adj_del_from g x) segs (upd degs x 0).
Proof.
  intros g segs degs x (Hc & Ha & Ld & Ln & H) Hx. destruct (H x Hx) as [E Hd].
  unfold adj_del_from, set_degree. rewrite E. cbn [fst].
  split; [auto|]. split; [auto|]. split; [rewrite upd_length; auto|].
  cbn [anodes]. split; [rewrite upd_length; auto|].
  intros z Hz. destruct (Nat.eq_dec z x) as [->|Nz].
  - rewrite !nth_upd_same by lia. split; auto. lia.
  - rewrite !nth_upd_other by auto. auto.
Qed.

Lemma rep_flush : forall g segs degs, rep g segs degs ->
  rep (adj_flush g) segs (repeat 0 (length segs)).
Proof.
  intros g segs degs (Hc & Ha & Ld & Ln & H). unfold adj_flush.
  split; [auto|]. split; [auto|]. split; [apply repeat_length|].
  cbn [anodes]. split; [rewrite map_length; auto|].
  intros z Hz. destruct (H z Hz) as [E _]. rewrite nth_repeat'. split; [|lia].
  rewrite (nth_indep _ (0, 0) ((fun od : nat * nat => (fst od, 0)) (0, 0))) by (rewrite map_length; lia).
  rewrite (map_nth (fun od : nat * nat => (fst od, 0))). rewrite E. auto.
Qed.

(** ** Building *)
Definition count_from (l : list (nat * nat)) (x : nat) : nat := length (arcs_of l x).

Lemma arcs_of_app : forall l1 l2 x, arcs_of (l1 ++ l2) x = arcs_of l1 x ++ arcs_of l2 x.
Proof. intros. unfold arcs_of. rewrite filter_app, map_app. auto. Qed.

Lemma arcs_of_one : forall x y z, arcs_of [(x, y)] z = if x =? z then [y] else [].
Proof. intros. unfold arcs_of. simpl. destruct (x =? z); auto. Qed.

Lemma count_pass : forall l g, acommitted g = false ->
  (forall x y, In (x, y) l -> x < length (anodes g)) ->
  exists g', adj_add_all g l = Some g' /\ acommitted g' = false /\
    length (anodes g') = length (anodes g) /\
    forall x, x < length (anodes g) ->
      snd (nth x (anodes g') (0, 0)) = snd (nth x (anodes g) (0, 0)) + count_from l x.
Proof.
  induction l as [|[x y] l IH]; intros g Hc Hl.
  - exists g. repeat split; auto; intros; unfold count_from; simpl; lia.
  - cbn [adj_add_all]. unfold adj_add. rewrite Hc.
    destruct (nth x (anodes g) (0, 0)) as [off deg] eqn:E.
    assert (Hx : x < length (anodes g)) by (apply (Hl x y); left; auto).
    destruct (IH (set_degree g x (deg + 1))) as (g' & H1 & H2 & H3 & H4).
    + auto.
    + intros a b Hab. unfold set_degree. cbn [anodes]. rewrite upd_length. apply (Hl a b). right; auto.
    + unfold set_degree in H3, H4. cbn [anodes] in H3, H4. rewrite upd_length in H3, H4.
      exists g'. repeat split; auto. intros z Hz. rewrite H4 by auto.
      unfold count_from. change ((x, y) :: l) with ([(x, y)] ++ l). rewrite arcs_of_app, app_length, arcs_of_one.
      destruct (Nat.eqb_spec x z) as [->|Nx].
      * rewrite nth_upd_same by auto. rewrite E. cbn [snd length]. lia.
      * rewrite nth_upd_other by auto. simpl. lia.
Qed.

Lemma commit_rep : forall g, acommitted g = false -> anodes g <> [] ->
  exists g' segs, adj_commit g = Some g' /\ rep g' segs (repeat 0 (length segs)) /\
    length segs = length (anodes g) /\
    forall x, x < length segs -> length (nth x segs []) = snd (nth x (anodes g) (0, 0)).
Proof.
  intros g Hc Hne. unfold adj_commit. rewrite Hc. destruct (anodes g) as [|nd ns] eqn:En; [congruence|].
  rewrite <- En. clear En Hne nd ns.
  set (segs := map (fun nd : nat * nat => repeat 0 (snd nd)) (anodes g)).
  assert (Hlen : forall x, x < length (anodes g) -> length (nth x segs []) = snd (nth x (anodes g) (0, 0))).
  { intros x Hx. unfold segs. rewrite (nth_indep _ [] ((fun nd : nat * nat => repeat 0 (snd nd)) (0, 0)))
      by (rewrite map_length; auto).
    rewrite (map_nth (fun nd : nat * nat => repeat 0 (snd nd))). apply repeat_length. }
  assert (Lsegs : length segs = length (anodes g)) by apply map_length.
  eexists. exists segs. split; [reflexivity|]. split; [|split; [auto|intros; apply Hlen; lia]].
  assert (HC : forall ns off, length (commit_nodes off ns) = length ns /\
     concat (map (fun nd : nat * nat => repeat 0 (snd nd)) ns) = repeat 0 (total_degree ns) /\
     forall x, x < length ns -> nth x (commit_nodes off ns) (0, 0) =
       (off + off_of (map (fun nd : nat * nat => repeat 0 (snd nd)) ns) x, 0)).
  { induction ns as [|[o d] ns IH]; intros off; [simpl; repeat split; auto; intros; lia|].
    destruct (IH (off + d)) as (I1 & I2 & I3). split; [simpl; auto|]. split.
    - cbn [map concat total_degree snd]. rewrite I2. rewrite <- repeat_app. auto.
    - intros x Hx. destruct x; [cbn; unfold off_of; simpl; f_equal; lia|].
      cbn [commit_nodes nth map]. rewrite off_cons. rewrite I3 by (simpl in Hx; lia).
      cbn [snd]. rewrite repeat_length. f_equal. lia. }
  destruct (HC (anodes g) 0) as (I1 & I2 & I3).
  split; [auto|]. split; [cbn [aarcs]; rewrite <- I2; auto|].
  split; [apply repeat_length|]. cbn [anodes]. split; [lia|].
  intros x Hx. rewrite nth_repeat'. split; [|lia]. rewrite I3 by lia. auto.
Qed.

Lemma add_pass : forall l g segs degs,
  rep g segs degs ->
  (forall x y, In (x, y) l -> x < length segs) ->
  (forall x, x < length segs -> nth x degs 0 + count_from l x <= length (nth x segs [])) ->
  exists g' segs' degs', adj_add_all g l = Some g' /\ rep g' segs' degs' /\
    length segs' = length segs /\
    (forall z, length (nth z segs' []) = length (nth z segs [])) /\
    forall x, x < length segs -> adj_arcs g' x = adj_arcs g x ++ arcs_of l x.
Proof.
  induction l as [|[x y] l IH]; intros g segs degs Hr Hl Hcap.
  - exists g, segs, degs. split; [reflexivity|]. split; [exact Hr|]. split; [auto|]. split; [auto|].
    intros. unfold arcs_of. simpl. rewrite app_nil_r. auto.
  - cbn [adj_add_all].
    assert (Hx : x < length segs) by (apply (Hl x y); left; auto).
    assert (Hc1 : forall z, count_from ((x, y) :: l) z = (if x =? z then 1 else 0) + count_from l z).
    { intros z. unfold count_from. change ((x, y) :: l) with ([(x, y)] ++ l).
      rewrite arcs_of_app, app_length, arcs_of_one. destruct (x =? z); auto. }
    pose proof (Hcap x Hx) as Hcx. rewrite Hc1, Nat.eqb_refl in Hcx.
    destruct (rep_add g segs degs x y Hr Hx ltac:(lia)) as (g1 & E1 & R1). rewrite E1.
    pose proof Hr as (_ & _ & Ld & _ & Hd).
    assert (Hsh : forall z, length (nth z (upd segs x (upd (nth x segs []) (nth x degs 0) y)) []) = length (nth z segs [])).
    { intros z. rewrite nth_upd. destruct (Nat.eqb_spec z x) as [->|Nz]; simpl; auto.
      destruct (x <? length segs); auto. apply upd_length. }
    destruct (IH _ _ _ R1) as (g' & segs' & degs' & E' & R' & L' & S' & A').
    + rewrite upd_length. intros a b Hab. apply (Hl a b). right; auto.
    + rewrite upd_length. intros z Hz. rewrite Hsh. specialize (Hcap z Hz). rewrite Hc1 in Hcap.
      destruct (Nat.eqb_spec x z) as [Ez|Nx]; [subst z|].
      * rewrite nth_upd_same by lia. lia.
      * rewrite nth_upd_other by auto. lia.
    + exists g', segs', degs'. rewrite upd_length in *. split; auto. split; auto. split; auto.
      split; [intros z; rewrite S'; auto|].
      intros z Hz. rewrite A' by auto. change ((x, y) :: l) with ([(x, y)] ++ l).
      rewrite arcs_of_app, arcs_of_one, app_assoc. f_equal.
      rewrite (rep_arcs _ _ _ z R1) by (rewrite upd_length; auto).
      rewrite (rep_arcs _ _ _ z Hr) by auto.
      destruct (Nat.eqb_spec x z) as [Ez|Nx]; [subst z|].
      * rewrite !nth_upd_same by lia. rewrite Nat.add_1_r.
        rewrite firstn_S_nth by (rewrite upd_length; lia).
        rewrite firstn_upd_lt by lia. rewrite nth_upd_same by lia. auto.
      * rewrite !nth_upd_other by auto. rewrite app_nil_r. auto.
Qed.

Lemma adj_build_spec : forall n l, (forall x y, In (x, y) l -> x < n) ->
  exists g, adj_build n l = Some g /\
    (forall x, x < n -> adj_arcs g x = arcs_of l x) /\
    (n = 0 \/ exists segs degs, rep g segs degs /\ length segs = n /\
       forall x, x < n -> length (nth x segs []) = count_from l x).
Proof.
  intros n l Hl. unfold adj_build.
  destruct (count_pass l (adj_new n)) as (g1 & E1 & C1 & L1 & D1).
  { auto. }
  { cbn [adj_new anodes]. rewrite repeat_length. auto. }
  rewrite E1. cbn [adj_new anodes] in *. rewrite repeat_length in *.
  destruct n as [|n'] eqn:En.
  { unfold adj_commit. destruct (anodes g1); [|discriminate].
    destruct l as [|[x y] l]; [|exfalso; specialize (Hl x y (or_introl eq_refl)); lia].
    exists g1. split; auto. split; [intros; lia|auto]. }
  rewrite <- En in *.
  destruct (commit_rep g1 C1) as (g2 & segs & E2 & R2 & L2 & S2).
  { intros E. rewrite E in L1. simpl in L1. lia. }
  rewrite E2.
  assert (Hcnt : forall x, x < n -> length (nth x segs []) = count_from l x).
  { intros x Hx. rewrite S2, D1 by lia. rewrite nth_repeat'. simpl. lia. }
  destruct (add_pass l g2 segs (repeat 0 (length segs)) R2) as (g3 & segs3 & degs3 & E3 & R3 & L3 & S3 & A3).
  - intros x y H. apply Hl in H. lia.
  - intros x Hx. rewrite nth_repeat', Hcnt by lia. lia.
  - exists g3. split; auto. split.
    + intros x Hx. rewrite A3 by lia. rewrite (rep_arcs _ _ _ x R2) by lia.
      rewrite nth_repeat'. auto.
    + right. exists segs3, degs3. split; auto. split; [lia|]. intros x Hx. rewrite S3. auto.
Qed.
