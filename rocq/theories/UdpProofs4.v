(** The concrete UDP systems: well-formedness, and executions that no
    interleaving of atomic actions explains. *)
From Coq Require Import List NArith Arith Bool Lia.
Import ListNotations.
From Verif Require Import UdpModel UdpSpec UdpProofs UdpProofs2 UdpSample.

(** * Running a schedule *)
Lemma run_app s : forall es1 g es2,
  run s g (es1 ++ es2) =
  match run s g es1 with
  | None => None
  | Some (g1, o1) => match run s g1 es2 with None => None | Some (g2, o2) => Some (g2, o1 ++ o2) end
  end.
Proof.
  induction es1 as [|e es1 IH]; intros g es2; cbn [List.app run].
  - destruct (run s g es2) as [[? ?]|]; reflexivity.
  - destruct (step s g e) as [[g1 o1]|]; [|reflexivity]. rewrite IH.
    destruct (run s g1 es1) as [[g2 o2]|]; [|reflexivity].
    destruct (run s g2 es2) as [[g3 o3]|]; reflexivity.
Qed.

Lemma firstn_S_nth {A} (l : list A) n d : (n < length l)%nat -> firstn (S n) l = firstn n l ++ [nth n l d].
Proof.
  revert n. induction l as [|a l IH]; intros n H; [cbn in H; lia|].
  destruct n; [reflexivity|]. cbn [firstn nth List.app]. f_equal. apply IH. cbn in H. lia.
Qed.

Lemma run_history s g es r : run s g es = Some r ->
  history s (length es) (after s g es) (event_at es) (done_at s g es).
Proof.
  intros R l Hl. unfold done_at.
  assert (P : forall n, (n <= length es)%nat -> exists x o, run s g (firstn n es) = Some (x, o)).
  { intros n Hn. rewrite <- (firstn_skipn n es), run_app in R.
    destruct (run s g (firstn n es)) as [[x o]|]; [eauto|discriminate]. }
  destruct (P l ltac:(lia)) as (x & o & E). destruct (P (S l) ltac:(lia)) as (x' & o' & E').
  assert (A : after s g es l = x) by (unfold after; now rewrite E).
  assert (A' : after s g es (S l) = x') by (unfold after; now rewrite E').
  rewrite A, A'. rewrite (firstn_S_nth es l (Timeout 0) Hl), run_app, E in E'. cbn [run] in E'.
  fold (event_at es l) in E'. destruct (step s x (event_at es l)) as [[y oy]|]; [|discriminate].
  injection E' as -> _. reflexivity.
Qed.

Definition fresh_between (g g' : net) : bool :=
  forallb (fun x => let '(i, k, p) := x in
     eq_seq (id_of g' i k) (id_of g i k) || negb (eq_seq (dst_seq p) (id_of g' i k))) (flight g).
Definition fresh_check (s : system) (g : net) (es : list event) : bool :=
  forallb (fun l => fresh_between (after s g es l) (after s g es (S l))) (List.seq 0 (length es)).
Lemma fresh_check_spec s g es : fresh_check s g es = true -> fresh_ids (length es) (after s g es).
Proof.
  intros H l i k p Hl N HIn C. unfold fresh_check in H. rewrite forallb_forall in H.
  specialize (H l). rewrite in_seq in H. specialize (H ltac:(lia)). unfold fresh_between in H.
  rewrite forallb_forall in H. specialize (H _ HIn). cbn beta iota in H.
  apply orb_true_iff in H. destruct H as [H|H].
  - apply eq_seq_spec in H. contradiction.
  - apply negb_true_iff in H. apply eq_seq_spec in C. congruence.
Qed.

(** * The three-colour ring *)
Definition two (_ : nat) : nat := 2.

Lemma color_reads k j : reads_pos color_node k j -> (k = 0 \/ k = 1) /\ j = 0.
Proof.
  intros R. pose proof (R j (le_n _)) as H. cbn in H.
  destruct k as [|[|k]], j as [|j]; cbn in H; try lia.
Qed.
Lemma color_reads_ok k : k = 0 \/ k = 1 -> reads_pos color_node k 0.
Proof. intros [->| ->] i Hi; replace i with 0 by lia; cbn; lia. Qed.
Lemma color_writes_ok k : k = 0 \/ k = 1 -> writes_pos color_node k 0.
Proof. intros [->| ->] i Hi; replace i with 0 by lia; cbn; lia. Qed.

Lemma ring_peer_ok i k : (i < 3)%nat -> (k < 2)%nat ->
  exists i' k', ring_peer i k = (i', k') /\ (i' < 3)%nat /\ (k' < 2)%nat /\ ring_peer i' k' = (i, k).
Proof.
  intros Hi Hk. destruct i as [|[|[|i]]]; try lia; destruct k as [|[|k]]; try lia; cbn;
    eexists _, _; (split; [reflexivity|]); cbn; repeat split; lia.
Qed.

Lemma in_domain_cons d ds x : Forall2 (fun v D => (v < D)%nat) x (d :: ds) ->
  exists v x', x = v :: x' /\ (v < d)%nat /\ Forall2 (fun v D => (v < D)%nat) x' ds.
Proof. intros H. inversion H; subst. eauto 6. Qed.

Lemma recolor_lt f a c b : (c < 3)%nat -> (recolor f a c b < 3)%nat.
Proof.
  revert c. induction f; intros c H; cbn [recolor]; auto. destruct (_ || _); auto.
  apply IHf, Nat.mod_upper_bound. lia.
Qed.

Lemma color_wf t : well_formed (color_sys t) two.
Proof.
  unfold well_formed, two; cbn [nproc node peer color_sys].
  split; [intros; apply ring_peer_ok; auto|]. split; [auto|]. split; [intros; cbn; lia|]. split.
  { intros i k j Hi Hk R. destruct (color_reads k j R) as [K ->].
    split; [cbn; lia|]. split; [destruct K as [->| ->]; cbn; lia|].
    destruct (ring_peer_ok i k Hi Hk) as (i' & k' & -> & _ & Hk' & _).
    assert (k' = 0 \/ k' = 1) as K' by lia. split; [apply color_writes_ok; auto|].
    destruct K as [->| ->], K' as [->| ->]; reflexivity. }
  split.
  { intros i k j k' j' Hi Hk Hk' R R' E. destruct (color_reads k j R) as [K ->], (color_reads k' j' R') as [K' ->].
    destruct K as [->| ->], K' as [->| ->]; cbn in E; auto; discriminate. }
  intros i x Hi D. split; [exact D|]. unfold in_domain in *; cbn [doms color_node] in *.
  apply in_domain_cons in D. destruct D as (a & x1 & -> & Ha & D).
  apply in_domain_cons in D. destruct D as (b & x2 & -> & Hb & D).
  apply in_domain_cons in D. destruct D as (c & x3 & -> & Hc & D). inversion D; subst.
  split.
  - intros ?. cbn [action_assign color_node]. unfold color_action. cbn [update nth].
    apply Forall2_cons; [exact Ha|]. apply Forall2_cons; [apply recolor_lt; exact Hb|].
    apply Forall2_cons; [exact Hc|]. apply Forall2_nil.
  - intros k j Hk R. destruct (color_reads k j R) as [K ->]. split; [reflexivity|].
    intros ?. destruct K as [->| ->]; reflexivity.
Qed.

Lemma color_clean t : clean_start (color_sys t) two color_start.
Proof.
  split; [reflexivity|]. split; [reflexivity|]. intros i Hi. cbn [nproc color_sys] in Hi.
  destruct i as [|[|[|i]]]; try lia; (split; [reflexivity|]); (split; [repeat constructor; lia|]); intros H; now destruct H.
Qed.

Lemma color_coherent t : coherent (color_sys t) two color_start.
Proof.
  intros i Hi. cbn [nproc color_sys] in Hi. split; [reflexivity|]. split; [|auto].
  intros k j Hk R. cbn [node color_sys] in R. destruct (color_reads k j R) as [K ->].
  destruct i as [|[|[|i]]]; try lia; destruct K as [->| ->]; reflexivity.
Qed.

(** Own values along atomic executions. *)
Definition own (W : nat -> list nat) (i : nat) : nat := nth 1 (W i) 0.

Lemma color_owned t i : owned (color_sys t) two i 1.
Proof.
  intros k j Hk R. cbn [node color_sys] in *. destruct (color_reads k j R) as [[->| ->] ->]; cbn; discriminate.
Qed.

Lemma color_atomic t W W' : atomic_step (color_sys t) two W W' ->
  (forall i, (i < 3)%nat -> length (W i) = 3) ->
  (forall i, (i < 3)%nat -> length (W' i) = 3) /\
  exists i, (i < 3)%nat /\ own W' i = recolor 3 (own W ((i + 2) mod 3)) (own W i) (own W ((i + 1) mod 3)) /\
    forall i', i' <> i -> own W' i' = own W i'.
Proof.
  intros (i & c & x & Hi & (LX & C & O) & E & F) LW. cbn [nproc node color_sys] in *.
  assert (LX3 : length x = 3) by (rewrite LX; auto).
  split.
  - intros j Hj. destruct (Nat.eq_dec j i) as [->|N]; [|rewrite F; auto].
    rewrite E. cbn [action_assign color_node]. unfold color_action. now rewrite update_length.
  - exists i. split; auto. split; [|intros i' N; unfold own; now rewrite F].
    unfold own at 1. rewrite E. cbn [action_assign color_node]. unfold color_action.
    rewrite nth_update_eq by lia. f_equal.
    + exact (C 0 0 ltac:(unfold two; lia) (color_reads_ok 0 (or_introl eq_refl))).
    + apply (O 1). apply color_owned.
    + exact (C 1 0 ltac:(unfold two; lia) (color_reads_ok 1 (or_intror eq_refl))).
Qed.

Definition move3 (f : nat -> nat -> nat -> nat) (t : nat * nat * nat) : list (nat * nat * nat) :=
  let '(a, b, c) := t in [(f c a b, b, c); (a, f a b c, c); (a, b, f b c a)].
Definition mem3 (t : nat * nat * nat) (r : list (nat * nat * nat)) : bool :=
  existsb (fun u => let '(a, b, c) := t in let '(a', b', c') := u in (a =? a') && (b =? b') && (c =? c')) r.
Lemma mem3_spec t r : mem3 t r = true -> In t r.
Proof.
  unfold mem3. rewrite existsb_exists. intros ([[a' b'] c'] & HI & H). destruct t as [[a b] c].
  rewrite !andb_true_iff, !Nat.eqb_eq in H. destruct H as [[-> ->] ->]. exact HI.
Qed.
Definition closed3 f r : bool := forallb (fun t => forallb (fun u => mem3 u r) (move3 f t)) r.

Definition color_reach : list (nat * nat * nat) :=
  [(1,1,1); (2,1,1); (1,2,1); (1,1,2); (2,0,1); (2,1,0); (0,2,1); (1,2,0); (0,1,2); (1,0,2)].

Lemma closed_step f r W W' i : closed3 f r = true -> (i < 3)%nat -> In (own W 0, own W 1, own W 2) r ->
  own W' i = f (own W ((i + 2) mod 3)) (own W i) (own W ((i + 1) mod 3)) ->
  (forall i', i' <> i -> own W' i' = own W i') -> In (own W' 0, own W' 1, own W' 2) r.
Proof.
  intros C Hi H E F. unfold closed3 in C. rewrite forallb_forall in C. specialize (C _ H).
  cbn [move3 forallb] in C. rewrite !andb_true_iff in C. destruct C as (C0 & C1 & C2 & _).
  apply mem3_spec in C0, C1, C2.
  destruct i as [|[|[|i]]]; try lia; cbn [Nat.add] in E;
    change ((2) mod 3) with 2 in E; change (1 mod 3) with 1 in E; change (3 mod 3) with 0 in E;
    change (4 mod 3) with 1 in E; rewrite ?E.
  - rewrite (F 1), (F 2) by discriminate. exact C0.
  - rewrite (F 0), (F 2) by discriminate. exact C1.
  - rewrite (F 0), (F 1) by discriminate. exact C2.
Qed.

Lemma color_never t W :
  atomically (color_sys t) two (fun i => values (pst color_start i)) W ->
  (forall i, (i < 3)%nat -> length (W i) = 3) /\ In (own W 0, own W 1, own W 2) color_reach.
Proof.
  induction 1 as [|W1 W2 _ [IL IH] ST].
  - split; [|cbn; auto]. intros i Hi. destruct i as [|[|[|i]]]; try lia; reflexivity.
  - destruct (color_atomic _ _ _ ST IL) as (L2 & i & Hi & E & F). split; [exact L2|].
    apply (closed_step (recolor 3) color_reach W1 W2 i); auto.
Qed.

(** * The one-way ring *)
Lemma flip_reads k j : reads_pos flip_node k j -> k = 0 /\ j = 0.
Proof.
  intros R. pose proof (R j (le_n _)) as H. cbn in H.
  destruct k as [|[|k]], j as [|j]; cbn in H; try lia.
Qed.
Lemma flip_wf t : well_formed (flip_sys t) two.
Proof.
  unfold well_formed, two; cbn [nproc node peer flip_sys].
  split; [intros; apply ring_peer_ok; auto|]. split; [auto|]. split; [intros; cbn; lia|]. split.
  { intros i k j Hi Hk R. destruct (flip_reads k j R) as [-> ->].
    split; [cbn; lia|]. split; [cbn; lia|]. cbn [ring_peer].
    split; [intros q Hq; replace q with 0 by lia; cbn; lia|reflexivity]. }
  split.
  { intros i k j k' j' Hi Hk Hk' R R' E. destruct (flip_reads k j R) as [-> ->], (flip_reads k' j' R') as [-> ->]. auto. }
  intros i x Hi D. split; [exact D|]. unfold in_domain in *; cbn [doms flip_node] in *.
  apply in_domain_cons in D. destruct D as (a & x1 & -> & Ha & D).
  apply in_domain_cons in D. destruct D as (b & x2 & -> & Hb & D). inversion D; subst.
  split.
  - intros ?. cbn [action_assign flip_node]. unfold flip_action. cbn [update nth].
    destruct (a =? b)%nat; (apply Forall2_cons; [exact Ha|]); (apply Forall2_cons; [lia|]); apply Forall2_nil.
  - intros k j Hk R. destruct (flip_reads k j R) as [-> ->]. split; [reflexivity|].
    intros ?. cbn. unfold flip_action. cbn [nth]. destruct (a =? b)%nat; reflexivity.
Qed.
Lemma flip_clean t : clean_start (flip_sys t) two flip_start.
Proof.
  split; [reflexivity|]. split; [reflexivity|]. intros i Hi. cbn [nproc flip_sys] in Hi.
  destruct i as [|[|[|i]]]; try lia; (split; [reflexivity|]); (split; [repeat constructor; lia|]); intros H; now destruct H.
Qed.
Lemma flip_coherent t : coherent (flip_sys t) two flip_start.
Proof.
  intros i Hi. cbn [nproc flip_sys] in Hi. split; [reflexivity|]. split; [|auto].
  intros k j Hk R. cbn [node flip_sys] in R. destruct (flip_reads k j R) as [-> ->].
  destruct i as [|[|[|i]]]; try lia; reflexivity.
Qed.
Lemma flip_owned t i : owned (flip_sys t) two i 1.
Proof. intros k j Hk R. cbn [node flip_sys] in *. destruct (flip_reads k j R) as [-> ->]; cbn; discriminate. Qed.
Definition flip3 (a c b : nat) : nat := if (a =? c)%nat then 1 - c else c.
Lemma flip_atomic t W W' : atomic_step (flip_sys t) two W W' ->
  (forall i, (i < 3)%nat -> length (W i) = 2) ->
  (forall i, (i < 3)%nat -> length (W' i) = 2) /\
  exists i, (i < 3)%nat /\ own W' i = flip3 (own W ((i + 2) mod 3)) (own W i) (own W ((i + 1) mod 3)) /\
    forall i', i' <> i -> own W' i' = own W i'.
Proof.
  intros (i & c & x & Hi & (LX & C & O) & E & F) LW. cbn [nproc node flip_sys] in *.
  assert (LX3 : length x = 2) by (rewrite LX; auto).
  assert (X0 : nth 0 x 0 = own W ((i + 2) mod 3)).
  { apply (C 0 0); [unfold two; lia|]. intros q Hq. replace q with 0 by lia. cbn; lia. }
  assert (X1 : nth 1 x 0 = own W i) by (apply (O 1), flip_owned).
  split.
  - intros j Hj. destruct (Nat.eq_dec j i) as [->|N]; [|rewrite F; auto].
    rewrite E. cbn [action_assign flip_node]. unfold flip_action.
    destruct (nth 0 x 0 =? nth 1 x 0)%nat; now rewrite ?update_length.
  - exists i. split; auto. split; [|intros i' N; unfold own; now rewrite F].
    unfold own at 1. rewrite E. cbn [action_assign flip_node]. unfold flip_action, flip3.
    rewrite <- X0, <- X1. destruct (nth 0 x 0 =? nth 1 x 0)%nat; [|reflexivity].
    now rewrite nth_update_eq by lia.
Qed.
Definition flip_reach : list (nat * nat * nat) :=
  [(0,0,0); (1,0,0); (0,1,0); (0,0,1); (1,1,0); (0,1,1); (1,0,1)].
Lemma flip_never t W :
  atomically (flip_sys t) two (fun i => values (pst flip_start i)) W ->
  (forall i, (i < 3)%nat -> length (W i) = 2) /\ In (own W 0, own W 1, own W 2) flip_reach.
Proof.
  induction 1 as [|W1 W2 _ [IL IH] ST].
  - split; [|cbn; auto]. intros i Hi. destruct i as [|[|[|i]]]; try lia; reflexivity.
  - destruct (flip_atomic _ _ _ ST IL) as (L2 & i & Hi & E & F). split; [exact L2|].
    apply (closed_step flip3 flip_reach W1 W2 i); auto.
Qed.
