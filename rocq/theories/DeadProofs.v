From Coq Require Import List Arith Lia Bool.
From Verif Require Import DeadModel DeadSpec.
Import ListNotations.

Section Nodes.
Variable nodes : list LCNode.
Let n_of := get nodes.

Definition arc (i j : nat) : Prop :=
  i < length nodes /\ j < length nodes /\ x_pd (n_of j) = x_id (n_of i) /\ x_id (n_of j) = x_sc (n_of i).

Lemma edges_spec : forall i j, i < length nodes ->
  In j (edges nodes (x_id (n_of i)) (x_sc (n_of i))) <-> arc i j.
Proof.
  intros i j Hi. unfold edges, arc. rewrite filter_In, in_seq, andb_true_iff, !Nat.eqb_eq. fold n_of.
  intuition lia.
Qed.

Inductive walk : nat -> nat -> nat -> Prop :=
| walk_0 : forall i, i < length nodes -> walk 0 i i
| walk_S : forall d i j k, walk d i j -> arc j k -> walk (S d) i k.

Lemma walk_fun : forall d i j, walk d i j -> exists f : nat -> nat,
  f 0 = i /\ f d = j /\ forall k, k < d -> arc (f k) (f (S k)).
Proof.
  intros d i j H. induction H as [i Hi|d i j k H (f & F0 & F1 & F2) A].
  - exists (fun _ => i). repeat split; auto; intros; lia.
  - exists (fun m => if m <=? d then f m else k). split; [auto|]. split.
    + replace (S d <=? d) with false by (symmetry; apply Nat.leb_gt; lia). auto.
    + intros m Hm. destruct (Nat.leb_spec m d); [|lia]. destruct (Nat.leb_spec (S m) d).
      * apply F2. lia.
      * replace m with d by lia. rewrite F1. auto.
Qed.

(** A closed walk of length d+1 is a silent ring of d+1 processes. *)
Lemma closed_walk_ring : forall d s, walk (S d) s s ->
  exists r, length r = S d /\ silent_ring (silent_of nodes) r /\
    local r 0 = triple (n_of s).
Proof.
  intros d s H. destruct (walk_fun _ _ _ H) as (f & F0 & F1 & F2).
  set (r := map (fun k => x_id (n_of (f k))) (seq 0 (S d))).
  assert (Lr : length r = S d) by (unfold r; rewrite map_length, seq_length; auto).
  assert (Nr : forall k, k < S d -> nth k r 0 = x_id (n_of (f k))).
  { intros k Hk. unfold r. rewrite (nth_indep _ 0 ((fun k => x_id (n_of (f k))) 0)) by (fold r; lia).
    rewrite (map_nth (fun k => x_id (n_of (f k)))). rewrite seq_nth by auto. auto. }
  assert (HL : forall p, p < S d -> local r p = triple (n_of (f p))).
  { intros p Hp. unfold local, triple. rewrite Lr.
    assert (E1 : nth (left_of (S d) p) r 0 = x_pd (n_of (f p))).
    { unfold left_of. destruct p as [|p]; cbn [Nat.eqb].
      - rewrite Nr by lia. replace (S d - 1) with d by lia.
        destruct (F2 d ltac:(lia)) as (_ & _ & E & _). rewrite F1 in E. rewrite F0. auto.
      - rewrite Nr by lia. replace (S p - 1) with p by lia.
        destruct (F2 p ltac:(lia)) as (_ & _ & E & _). auto. }
    assert (E2 : nth (right_of (S d) p) r 0 = x_sc (n_of (f p))).
    { unfold right_of. destruct (F2 p Hp) as (_ & _ & _ & E). rewrite <- E.
      destruct (Nat.eqb_spec (S p) (S d)) as [Hq|Hq].
      - rewrite Nr by lia. rewrite Hq, F0, F1. auto.
      - rewrite Nr by lia. auto. }
    rewrite E1, E2, Nr by auto. auto. }
  exists r. split; auto. split.
  - split; [intros E; rewrite E in Lr; discriminate|]. rewrite Lr. intros p Hp. rewrite HL by auto.
    exists (n_of (f p)). split; auto. apply nth_In. destruct (F2 p Hp). auto.
  - rewrite HL by lia. rewrite F0. auto.
Qed.

(** ** The search *)
Variable sidx : nat.
Hypothesis Hs : sidx < length nodes.

Definition front_ok (frontier : list (nat * nat)) : Prop :=
  forall t d, In (t, d) frontier -> walk d sidx t.

Lemma walk_lt : forall d i j, walk d i j -> j < length nodes.
Proof. intros d i j H. destruct H as [|? ? ? ? ? A]; auto. destruct A; tauto. Qed.

Definition unvisited (visited : list nat) : nat :=
  length (filter (fun i => negb (mem i visited)) (seq 0 (length nodes))).

Lemma mem_spec : forall x l, mem x l = true <-> In x l.
Proof.
  intros. unfold mem. rewrite existsb_exists. split.
  - intros (y & H & E). apply Nat.eqb_eq in E. subst. auto.
  - intros H. exists x. rewrite Nat.eqb_refl. auto.
Qed.

Lemma unvisited_cons : forall n visited, n < length nodes -> mem n visited = false ->
  unvisited (n :: visited) + 1 = unvisited visited.
Proof.
  intros n visited Hn Hm. unfold unvisited.
  assert (HG : forall l, NoDup l -> In n l ->
    length (filter (fun i => negb (mem i (n :: visited))) l) + 1 =
    length (filter (fun i => negb (mem i visited)) l)).
  { induction l as [|x l IH]; intros ND Hin; [destruct Hin|]. inversion ND; subst.
    destruct (Nat.eq_dec x n) as [->|Nx].
    - assert (E : filter (fun i => negb (mem i (n :: visited))) l = filter (fun i => negb (mem i visited)) l).
      { apply filter_ext_in. intros y Hy. cbn [mem existsb]. destruct (Nat.eqb_spec y n); auto.
        subst. contradiction. }
      cbn [filter]. rewrite E, Hm.
      replace (mem n (n :: visited)) with true by (cbn [mem existsb]; rewrite Nat.eqb_refl; auto).
      cbn [negb length]. lia.
    - destruct Hin as [|Hin]; [congruence|]. cbn [filter]. specialize (IH H2 Hin).
      replace (mem x (n :: visited)) with (mem x visited).
      + destruct (negb (mem x visited)); cbn [length]; lia.
      + cbn [mem existsb]. destruct (Nat.eqb_spec x n); [congruence|]. auto. }
  apply HG; [apply seq_NoDup|apply in_seq; lia].
Qed.

Lemma scan_spec : forall t d, walk d sidx t ->
  forall next visited frontier trace v' f' tr' found,
  (forall j, In j next -> arc t j) -> front_ok frontier ->
  scan nodes sidx next visited frontier trace d = (v', f', tr', found) ->
  front_ok f' /\ unvisited v' + length f' = unvisited visited + length frontier /\
  incl visited v' /\ incl frontier f' /\
  (forall x, In x v' -> In x visited \/ exists k, In (x, k) f') /\
  (found = None -> tr' = trace /\ forall j, In j next -> j <> sidx /\ In j v') /\
  (forall b, found = Some b -> arc t sidx /\ b = unwind trace (get nodes sidx) false).
Proof.
  intros t d Hw. induction next as [|n next IH]; intros visited frontier trace v' f' tr' found Hn Hf H; cbn [scan] in H.
  - injection H as <- <- <- <-. split; [auto|]. split; [auto|]. split; [apply incl_refl|].
    split; [apply incl_refl|]. split; [auto|]. split; [split; [auto|intros j []]|discriminate].
  - destruct (Nat.eqb_spec sidx n) as [E|E].
    + injection H as <- <- <- <-. subst n. split; [auto|]. split; [auto|]. split; [apply incl_refl|].
      split; [apply incl_refl|]. split; [auto|]. split; [discriminate|].
      intros b Hb. injection Hb as <-. split; auto. apply Hn. left; auto.
    + destruct (mem n visited) eqn:Em.
      * apply mem_spec in Em. destruct (IH _ _ _ _ _ _ _ (fun j Hj => Hn j (or_intror Hj)) Hf H)
          as (I1 & I2 & I3 & I4 & I5 & I6 & I7).
        split; [auto|]. split; [auto|]. split; [auto|]. split; [auto|]. split; [auto|]. split; [|auto].
        intros Hfd. destruct (I6 Hfd) as [J1 J2]. split; auto.
        intros j [<-|Hj]; auto.
      * assert (A : arc t n) by (apply Hn; left; auto).
        assert (Hf' : front_ok (frontier ++ [(n, d + 1)])).
        { intros x k Hx. apply in_app_iff in Hx. destruct Hx as [Hx|[Hx|[]]]; auto.
          injection Hx as <- <-. replace (d + 1) with (S d) by lia. eapply walk_S; eauto. }
        destruct (IH _ _ _ _ _ _ _ (fun j Hj => Hn j (or_intror Hj)) Hf' H)
          as (I1 & I2 & I3 & I4 & I5 & I6 & I7).
        assert (Hlt : n < length nodes) by (destruct A; tauto).
        pose proof (unvisited_cons n visited Hlt Em) as HU.
        split; [auto|]. split; [rewrite app_length in I2; simpl in I2; lia|].
        split; [intros x Hx; apply I3; right; auto|].
        split; [intros x Hx; apply I4, in_or_app; auto|].
        split.
        { intros x Hx. destruct (I5 x Hx) as [[<-|]|]; auto. right. exists (d + 1).
          apply I4, in_or_app. right. left. auto. }
        split; [|auto]. intros Hfd. destruct (I6 Hfd) as [J1 J2]. split; auto.
        intros j [<-|Hj]; auto. split; auto. apply I3. left. auto.
Qed.

Lemma bfs_total : forall fuel visited frontier trace, front_ok frontier ->
  unvisited visited + length frontier < fuel ->
  exists r, bfs fuel nodes sidx visited frontier trace = Some r /\
    forall n, r = Some n -> exists d, n = S d /\ walk (S d) sidx sidx.
Proof.
  induction fuel as [|fuel IH]; intros visited frontier trace Hf HF; [lia|]. cbn [bfs].
  destruct frontier as [|[t d] frontier]; [exists None; split; auto; discriminate|].
  assert (Hw : walk d sidx t) by (apply Hf; left; auto).
  assert (Hf' : front_ok frontier) by (intros x k Hx; apply Hf; right; auto).
  set (next := edges nodes (x_id (get nodes t)) (x_sc (get nodes t))).
  assert (Hn : forall j, In j next -> arc t j).
  { intros j. apply edges_spec. eapply walk_lt; eauto. }
  destruct (scan nodes sidx next visited frontier _ d) as [[[v' f'] tr'] found] eqn:E.
  destruct (scan_spec t d Hw next _ _ _ _ _ _ _ Hn Hf' E) as (I1 & I2 & I3 & I4 & I5 & I6 & I7).
  assert (HR : forall tr, exists r, bfs fuel nodes sidx v' f' tr = Some r /\
     forall n, r = Some n -> exists d, n = S d /\ walk (S d) sidx sidx).
  { intros tr. apply IH; auto. simpl in HF. lia. }
  destruct found as [[|]|]; auto.
  exists (Some (d + 1)). split; auto. intros n Hn'. injection Hn' as <-. exists d.
  split; [lia|]. eapply walk_S; eauto. destruct (I7 true eq_refl). auto.
Qed.

(** Completeness when every predecessor of the start node is legitimate. *)
Hypothesis Hpre : forall t, arc t sidx -> legit (n_of t) = true.

Lemma unwind_true : forall trace term, unwind trace term true = true.
Proof.
  induction trace as [|tr trace IH]; intros term; simpl; auto. destruct (_ && _); auto.
Qed.

Definition closed_inv (visited : list nat) (frontier : list (nat * nat)) : Prop :=
  forall i, (i = sidx \/ In i visited) -> i < length nodes -> (forall k, ~ In (i, k) frontier) ->
    forall j, arc i j -> j <> sidx /\ In j visited.

Lemma bfs_none : forall fuel visited frontier trace, front_ok frontier -> closed_inv visited frontier ->
  (exists k, In (sidx, k) frontier) \/ True ->
  bfs fuel nodes sidx visited frontier trace = Some None ->
  exists visited', closed_inv visited' [].
Proof.
  induction fuel as [|fuel IH]; intros visited frontier trace Hf HC _ H; [discriminate|]. cbn [bfs] in H.
  destruct frontier as [|[t d] frontier]; [exists visited; auto|].
  assert (Hw : walk d sidx t) by (apply Hf; left; auto).
  assert (Hf' : front_ok frontier) by (intros x k Hx; apply Hf; right; auto).
  set (next := edges nodes (x_id (get nodes t)) (x_sc (get nodes t))) in *.
  pose proof (walk_lt _ _ _ Hw) as Ht.
  assert (Hn : forall j, In j next -> arc t j).
  { intros j. apply edges_spec. auto. }
  destruct (scan nodes sidx next visited frontier _ d) as [[[v' f'] tr'] found] eqn:E.
  destruct (scan_spec t d Hw next _ _ _ _ _ _ _ Hn Hf' E) as (I1 & I2 & I3 & I4 & I5 & I6 & I7).
  assert (HN : found = None).
  { destruct found as [b|]; auto. exfalso. destruct (I7 b eq_refl) as [A Eb].
    assert (In sidx next) by (apply edges_spec; auto).
    destruct (Nat.eqb_spec (length next) 0) as [E0|_].
    { apply length_zero_iff_nil in E0. rewrite E0 in H0. destruct H0. }
    cbn [unwind] in Eb. destruct A as (_ & _ & A1 & A2).
    fold n_of in Eb. rewrite A1, A2, !Nat.eqb_refl in Eb. cbn [andb orb] in Eb.
    rewrite Hpre in Eb by (repeat split; auto). rewrite unwind_true in Eb. subst b. discriminate. }
  subst found. destruct (I6 eq_refl) as [_ I6']. eapply IH; [exact I1| |right; auto|exact H].
  intros i Hi Hlt Hnf j A.
  destruct (Nat.eq_dec i t) as [->|Nt].
  - apply I6'. apply edges_spec; auto.
  - assert (Hiv : i = sidx \/ In i visited).
    { destruct Hi as [|Hi]; auto. destruct (I5 i Hi) as [|(k & Hk)]; auto. destruct (Hnf k Hk). }
    assert (Hnf' : forall k, ~ In (i, k) ((t, d) :: frontier)).
    { intros k [Hk|Hk]; [injection Hk; congruence|]. apply (Hnf k). apply I4. auto. }
    destruct (HC i Hiv Hlt Hnf' j A) as [C1 C2]. split; auto.
Qed.

Lemma walk_pos_inv : forall d, ~ (exists v, closed_inv v [] /\ walk (S d) sidx sidx).
Proof.
  intros d (v & HC & Hw).
  assert (HI : forall d j, walk d sidx j -> d = 0 \/ (j <> sidx /\ In j v)).
  { induction d0 as [|d0 IH]; intros j Hj; auto. right. inversion Hj; subst.
    apply (HC j0); auto.
    - destruct (IH j0 H0) as [->|[_ ?]]; auto. inversion H0; subst. auto.
    - destruct H1; auto. }
  destruct (HI (S d) sidx Hw) as [|[]]; [discriminate|congruence].
Qed.
End Nodes.

Lemma check_from_spec : forall nodes starts, (forall s, In s starts -> s < length nodes) ->
  exists rs, check_from nodes starts = Some rs /\
    (forall s n, In (s, n) rs -> In s starts /\ legit (get nodes s) = false /\
       exists d, n = S d /\ walk nodes (S d) s s) /\
    (forall s, In s starts -> legit (get nodes s) = false ->
       (forall t, arc nodes t s -> legit (get nodes t) = true) ->
       (forall n, ~ In (s, n) rs) -> forall d, ~ walk nodes (S d) s s).
Proof.
  intros nodes. induction starts as [|s starts IH]; intros Hs.
  - exists []. split; auto. split; [intros s n []|intros s []].
  - destruct (IH (fun x Hx => Hs x (or_intror Hx))) as (rs & E & R1 & R2). cbn [check_from].
    destruct (legit (get nodes s)) eqn:El.
    + exists rs. split; auto. split.
      * intros x n Hx. destruct (R1 x n Hx) as (A & B). split; [right|]; auto.
      * intros x [<-|Hx] Hl; [congruence|]. apply R2; auto.
    + assert (Hlt : s < length nodes) by (apply Hs; left; auto).
      assert (Hf : front_ok nodes s [(s, 0)]).
      { intros t d [Ht|[]]. injection Ht as <- <-. constructor; auto. }
      destruct (bfs_total nodes s Hlt (length nodes + 2) [] [(s, 0)] []) as (r & Er & Hr); auto.
      { assert (HL : forall (f : nat -> bool) l, length (filter f l) <= length l).
        { induction l; simpl; auto. destruct (f a); simpl; lia. }
        unfold unvisited. specialize (HL (fun i => negb (mem i [])) (seq 0 (length nodes))).
        rewrite seq_length in HL. cbn [length]. lia. }
      rewrite Er, E. destruct r as [n|].
      * exists ((s, n) :: rs). split; auto. split.
        -- intros x m [Hx|Hx].
           ++ injection Hx as <- <-. split; [left; auto|]. split; auto.
           ++ destruct (R1 x m Hx) as (A & B). split; [right|]; auto.
        -- intros x [<-|Hx] Hl Hp Hnot; [exfalso; apply (Hnot n); left; auto|].
           apply R2; auto. intros m Hm. apply (Hnot m). right. auto.
      * exists rs. split; auto. split.
        -- intros x m Hx. destruct (R1 x m Hx) as (A & B). split; [right|]; auto.
        -- intros x [<-|Hx] Hl Hp Hnot; [|apply R2; auto].
           intros d Hw. destruct (bfs_none nodes s Hlt Hp (length nodes + 2) [] [(s, 0)] []) as (v & Hv); auto.
           { intros i [->|[]] _ Hk. exfalso. apply (Hk 0). left. auto. }
           apply (walk_pos_inv nodes s d). exists v. auto.
Qed.

(** A deadlock ring gives a closed walk through an illegitimate node. *)
Lemma ring_closed_walk : forall nodes s, deadlock_ring (silent_of nodes) (illegit_of nodes) s ->
  NoDup (map triple nodes) ->
  exists i d, i < length nodes /\ legit (get nodes i) = false /\ walk nodes (S d) i i.
Proof.
  intros nodes s ((Hne & HS) & p & Hp & (n0 & Hn0 & E0 & L0)) ND.
  set (N := length s) in *.
  assert (HN : 0 < N) by lia.
  (* one node index per process *)
  assert (HX : exists f : nat -> nat, forall q, q < N -> f q < length nodes /\ triple (get nodes (f q)) = local s q).
  { assert (HK : forall K, K <= N -> exists f : nat -> nat, forall q, q < K -> f q < length nodes /\ triple (get nodes (f q)) = local s q).
    { induction K as [|K IH]; intros HK; [exists (fun _ => 0); intros; lia|].
      destruct (IH ltac:(lia)) as (f & Hf). destruct (HS K ltac:(lia)) as (n & Hn & En).
      destruct (In_nth nodes n no_node Hn) as (i & Hi & Ei).
      exists (fun q => if q =? K then i else f q). intros q Hq.
      destruct (Nat.eqb_spec q K) as [->|]; [split; auto; unfold get; rewrite Ei; auto|apply Hf; lia]. }
    apply (HK N); auto. }
  destruct HX as (f & Hf).
  assert (HA : forall q, q < N -> arc nodes (f q) (f (right_of N q))).
  { intros q Hq. assert (Hr : right_of N q < N) by (unfold right_of; destruct (Nat.eqb_spec (S q) N); lia).
    destruct (Hf q Hq) as [A1 A2]. destruct (Hf _ Hr) as [B1 B2].
    unfold triple, local in A2, B2. fold N in A2, B2. injection A2 as A3 A4 A5. injection B2 as B3 B4 B5.
    split; [auto|]. split; [auto|]. rewrite B3, B4, A4, A5.
    replace (left_of N (right_of N q)) with q; auto.
    unfold left_of, right_of. destruct (Nat.eqb_spec (S q) N) as [E|E]; cbn [Nat.eqb]; lia. }
  set (g := fun k => f ((p + k) mod N)).
  assert (HG : forall k, arc nodes (g k) (g (S k))).
  { intros k. unfold g. assert (Hm : (p + k) mod N < N) by (apply Nat.mod_upper_bound; lia).
    replace ((p + S k) mod N) with (right_of N ((p + k) mod N)); [apply HA; auto|].
    unfold right_of. replace (p + S k) with (S (p + k)) by lia.
    pose proof (Nat.div_mod (p + k) N ltac:(lia)) as Hd.
    destruct (Nat.eqb_spec (S ((p + k) mod N)) N) as [E|E].
    - replace (S (p + k)) with (0 + (S ((p + k) / N)) * N) by nia. rewrite Nat.mod_add, Nat.mod_0_l by lia. auto.
    - replace (S (p + k)) with (S ((p + k) mod N) + ((p + k) / N) * N) by lia.
      rewrite Nat.mod_add by lia. rewrite (Nat.mod_small (S _)) by lia. auto. }
  assert (HW : forall k, walk nodes k (g 0) (g k)).
  { induction k; [constructor|econstructor; eauto]. destruct (HG 0); auto. }
  exists (g 0), (N - 1). destruct (HG 0) as (G1 & _). split; auto. split.
  - assert (Eg : triple (get nodes (g 0)) = triple n0).
    { unfold g. rewrite Nat.add_0_r, Nat.mod_small by auto. destruct (Hf p Hp) as [_ ->]. auto. }
    destruct (In_nth nodes n0 no_node Hn0) as (i & Hi & Ei).
    assert (g 0 = i).
    { rewrite NoDup_nth with (d := triple no_node) in ND. apply ND; rewrite ?map_length; auto.
      rewrite !map_nth. fold (get nodes (g 0)). rewrite Eg, Ei. auto. }
    subst i. unfold get. rewrite Ei. auto.
  - specialize (HW N). replace (S (N - 1)) with N by lia.
    replace (g N) with (g 0) in HW; auto. unfold g. rewrite Nat.add_0_r.
    replace (p + N) with (p + 1 * N) by lia. rewrite Nat.mod_add by lia. auto.
Qed.
