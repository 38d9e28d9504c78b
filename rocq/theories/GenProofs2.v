(** The check of one set of actions: what each answer of periodic_leads_semick says. *)
From Coq Require Import List Arith Lia Bool Relations.
From Verif Require Import FinLib UniModel UniSpec UniProofs LivelockModel LivelockSpec LivelockProofs
  LivelockProofs2 LivelockProofs3 TileModel TileSpec TileProofs TileProofs2 GenModel GenSpec GenProofs.
Import ListNotations.

Definition code (M : nat) (x : nat * nat * nat) : nat := let '(a, b, c) := x in id_of3 a b c M.

Lemma chain_nth : forall R l j, chain R l -> S j < length l -> R (nth j l 0) (nth (S j) l 0).
Proof.
  induction l as [|x l IH]; intros j H Hj; [simpl in Hj; lia|].
  destruct l as [|y l]; [simpl in Hj; lia|]. destruct H as [H1 H2].
  destruct j; [exact H1|]. apply (IH j H2). simpl in *. lia.
Qed.

Lemma ptrans : forall R x y z, path R x y -> path R y z -> path R x z.
Proof. intros R x y z H. revert z. induction H; intros; eapply path_more; eauto. Qed.

Section Code.
Variable M : nat.
Variable P : protocol.
Hypothesis PR : forall a b c, P a b c -> a < M /\ b < M /\ c < M.
Definition in3 (x : nat * nat * nat) : Prop := let '(a, b, c) := x in a < M /\ b < M /\ c < M.

Lemma continues_range : forall u v, continues P u v -> in3 u /\ in3 v.
Proof.
  intros [[a b] d] [[c e] g] (H1 & (x & H2) & (y & H3) & f & H4 & H5). simpl.
  apply PR in H1, H2, H3, H4, H5. intuition.
Qed.

Lemma code_inj : forall u v, in3 u -> in3 v -> code M u = code M v -> u = v.
Proof.
  intros [[a b] c] [[a' b'] c'] Hu Hv E. simpl in *. apply id3_inj in E; try tauto.
  destruct E as (-> & -> & ->). auto.
Qed.

Variable R : nat -> nat -> Prop.
Hypothesis HR : forall u v, R u v <-> exists x y, u = code M x /\ v = code M y /\ continues P x y.

Lemma path_of_ct : forall x y, clos_trans _ (continues P) x y -> path R (code M x) (code M y).
Proof.
  intros x y H. induction H as [x y H|x y z H1 IH1 H2 IH2].
  - apply path_one. apply HR. exists x, y. auto.
  - apply ptrans with (code M y); auto.
Qed.

Lemma ct_of_path : forall u v, path R u v -> forall x, in3 x -> u = code M x ->
  exists y, in3 y /\ v = code M y /\ clos_trans _ (continues P) x y.
Proof.
  induction 1 as [u v H|u v w H H' IH]; intros x Ix E.
  - apply HR in H. destruct H as (x' & y & E1 & E2 & HC). destruct (continues_range _ _ HC) as [I1 I2].
    assert (x = x') by (apply code_inj; congruence). subst x'. exists y. split; auto. split; auto.
    apply t_step. auto.
  - apply HR in H. destruct H as (x' & y & E1 & E2 & HC). destruct (continues_range _ _ HC) as [I1 I2].
    assert (x = x') by (apply code_inj; congruence). subst x'.
    destruct (IH y I2 E2) as (z & I3 & E3 & HC'). exists z. split; auto. split; auto.
    apply t_trans with y; auto. apply t_step. auto.
Qed.

Lemma cycle_iff : forall x, in3 x -> (path R (code M x) (code M x) <-> clos_trans _ (continues P) x x).
Proof.
  intros x Ix. split.
  - intros H. destruct (ct_of_path _ _ H x Ix eq_refl) as (y & Iy & E & HC).
    apply code_inj in E; auto. subst y. auto.
  - apply path_of_ct.
Qed.

Lemma recurs_range : forall a b, recurs P a b -> exists d, d < M /\ a < M /\ b < M /\
  clos_trans _ (continues P) (a, b, d) (a, b, d).
Proof.
  intros a b (d & H). exists d.
  assert (I : in3 (a, b, d)).
  { assert (G : forall x y, clos_trans _ (continues P) x y -> in3 x).
    { intros x y HC. induction HC as [x y HC|]; auto. apply continues_range in HC. tauto. }
    apply (G _ _ H). }
  simpl in I. tauto.
Qed.

Lemma recurs_iff : forall a b, a < M -> b < M ->
  (recurs P a b <-> exists d, d < M /\ path R (id_of3 a b d M) (id_of3 a b d M)).
Proof.
  intros a b Ha Hb. split.
  - intros H. destruct (recurs_range _ _ H) as (d & Hd & _ & _ & HC). exists d. split; auto.
    apply (cycle_iff (a, b, d)); simpl; auto.
  - intros (d & Hd & H). exists d. apply (cycle_iff (a, b, d)); simpl; auto.
Qed.
End Code.

Lemma continues_mono : forall (P Q : protocol), (forall a b c, P a b c -> Q a b c) ->
  forall u v, continues P u v -> continues Q u v.
Proof.
  intros P Q H [[a b] d] [[c e] g] (H1 & (x & H2) & (y & H3) & f & H4 & H5). simpl.
  split; [auto|]. split; [exists x; auto|]. split; [exists y; auto|]. exists f. auto.
Qed.

Lemma recurs_mono : forall (P Q : protocol), (forall a b c, P a b c -> Q a b c) ->
  forall a b, recurs P a b -> recurs Q a b.
Proof.
  intros P Q H a b (d & HC). exists d.
  assert (G : forall u v, clos_trans _ (continues P) u v -> clos_trans _ (continues Q) u v).
  { intros u v HC'. induction HC' as [u v HC'|u v w _ IH1 _ IH2].
    - apply t_step. eapply continues_mono; eauto.
    - apply t_trans with v; auto. }
  apply G, HC.
Qed.

Lemma continues_ext : forall (P Q : protocol), (forall a b c, P a b c <-> Q a b c) ->
  forall u v, continues P u v <-> continues Q u v.
Proof. intros P Q H u v. split; apply continues_mono; intros; apply H; auto. Qed.

Lemma in_adjacency : forall n arcs x y, In y (adjacency n arcs x) <-> x < n /\ In (x, y) arcs.
Proof.
  intros n arcs x y. unfold adjacency.
  assert (A : In y (arcs_of arcs x) <-> In (x, y) arcs).
  { unfold arcs_of. rewrite in_map_iff. split.
    - intros ([x' y'] & E & H). simpl in E. subst y'. apply filter_In in H. destruct H as [H E].
      apply Nat.eqb_eq in E. simpl in E. subst. auto.
    - intros H. exists (x, y). split; auto. apply filter_In. split; auto. apply Nat.eqb_refl. }
  destruct (Nat.lt_ge_cases x n).
  - rewrite (nth_indep _ [] (arcs_of arcs 0)) by (rewrite map_length, seq_length; auto).
    rewrite (map_nth (arcs_of arcs)), seq_nth by auto. simpl. rewrite A. tauto.
  - rewrite nth_overflow by (rewrite map_length, seq_length; auto). simpl. split; [tauto|]. lia.
Qed.

Section Leads.
Variable o : SearchOpt.
Let M := domsz o.
Hypothesis M0 : M <> 0.
Let N := M * M * M.
Notation inn := (in_set M).

Variable s : list bool.
Hypothesis Ls : length s = N.
Hypothesis Ds : deterministic (inn s).
Let t := ppgfun_of_actset s M.
Variable cand : list bool.
Hypothesis Lc : length cand = N.
Let u := union s cand.
Let adj := adjacency N (tile_arcs s t M).
Let oadj := adjacency N (overapprox_tile_arcs u M).

Lemma inn_range : forall set a b c, inn set a b c -> a < M /\ b < M /\ c < M.
Proof. intros set a b c (H1 & H2 & H3 & _). auto. Qed.

Lemma code_lt : forall x, in3 M x -> code M x < N.
Proof. intros [[a b] c] (Ha & Hb & Hc). apply id3_lt; auto. Qed.

Lemma adj_iff : forall x y, In y (adj x) <->
  exists p q, x = code M p /\ y = code M q /\ continues (inn s) p q.
Proof.
  intros x y. unfold adj. rewrite in_adjacency. destruct (tab_spec M M0 s Ls Ds) as [Ok HT].
  rewrite (tile_arcs_spec M s t x y Ls Ok). split.
  - intros (_ & a & b & c & d & e & f & g & -> & -> & H1 & H2 & H3 & H4 & H5).
    exists (a, b, d), (c, e, g). split; [reflexivity|]. split; [reflexivity|].
    simpl. split; [auto|]. split; [auto|]. split; [auto|]. exists f. split; apply HT; auto.
  - intros (p & q & -> & -> & HC). destruct (continues_range M (inn s) (inn_range s) p q HC) as [I1 I2].
    split; [apply code_lt; auto|]. destruct p as [[a b] d], q as [[c e] g].
    destruct HC as (H1 & H2 & H3 & f & H4 & H5). exists a, b, c, d, e, f, g.
    split; [reflexivity|]. split; [reflexivity|]. split; [auto|]. split; [auto|]. split; [auto|].
    split; apply HT; auto.
Qed.

Lemma Lu : length u = N.
Proof. unfold u. rewrite union_length; congruence. Qed.

Lemma oadj_iff : forall x y, In y (oadj x) <->
  exists p q, x = code M p /\ y = code M q /\ continues (inn u) p q.
Proof.
  intros x y. unfold oadj. rewrite in_adjacency. rewrite (overapprox_arcs_spec M u x y Lu). split.
  - intros (_ & a & b & c & d & e & f & g & -> & -> & H1 & H2 & H3 & H4 & H5).
    exists (a, b, d), (c, e, g). split; [reflexivity|]. split; [reflexivity|].
    simpl. split; [auto|]. split; [auto|]. split; [auto|]. exists f. split; auto.
  - intros (p & q & -> & -> & HC). destruct (continues_range M (inn u) (inn_range u) p q HC) as [I1 I2].
    split; [apply code_lt; auto|]. destruct p as [[a b] d], q as [[c e] g].
    destruct HC as (H1 & H2 & H3 & f & H4 & H5). exists a, b, c, d, e, f, g.
    split; [reflexivity|]. split; [reflexivity|]. split; [auto|]. split; [auto|]. split; [auto|].
    split; auto.
Qed.

Lemma find_some_none : forall A B (f : A -> option B) l, find_some f l = None ->
  forall x, In x l -> f x = None.
Proof.
  induction l as [|y l IH]; intros H x Hx; [easy|]. simpl in H. destruct (f y) eqn:E; [discriminate|].
  destruct Hx as [<-|Hx]; auto.
Qed.

(** What the search for a cycle through an action gives. *)
Lemma cycle_from_spec : forall (P : protocol) ad a b,
  (forall a b c, P a b c -> a < M /\ b < M /\ c < M) ->
  (forall x y, In y (ad x) <-> exists p q, x = code M p /\ y = code M q /\ continues P p q) ->
  a < M -> b < M ->
  match cycle_from M ad a b with
  | None => ~ recurs P a b
  | Some nodes => nodes <> [] /\ recurs P a b /\
      chain (fun x y => In y (ad x)) nodes /\ In (hd 0 nodes) (ad (last nodes 0)) /\
      exists d, d < M /\ hd 0 nodes = id_of3 a b d M
  end.
Proof.
  intros P ad a b PR HA Ha Hb. unfold cycle_from.
  assert (CK : forall d, d < M -> exists stack,
     cycle_ck_from (M * M * M) (id_of3 a b d M) ad = Some stack /\
     (stack <> [] -> chain (fun x y => In y (ad x)) (map fst (rev stack)) /\
        hd 0 (map fst (rev stack)) = id_of3 a b d M /\
        In (id_of3 a b d M) (ad (last (map fst (rev stack)) 0))) /\
     (stack <> [] <-> path (fun x y => In y (ad x)) (id_of3 a b d M) (id_of3 a b d M))).
  { intros d Hd. apply (cycle_ck_spec (M * M * M) (id_of3 a b d M) ad).
    intros x y H. apply HA in H. destruct H as (p & q & -> & -> & HC).
    apply (continues_range M P PR) in HC. apply code_lt. tauto. }
  destruct (find_some _ _) as [nodes|] eqn:E.
  - apply find_some_some in E. destruct E as (d & Hd & E). apply in_seq in Hd.
    destruct (CK d ltac:(lia)) as (stack & E1 & E2 & E3). rewrite E1 in E.
    destruct stack as [|x stack]; [discriminate|]. injection E as <-.
    destruct E2 as (C1 & C2 & C3); [discriminate|]. cbn [rev] in C1, C2, C3.
    split; [|split; [|split; [|split]]].
    + cbn [rev]. rewrite map_app. destruct (map fst (rev stack)); discriminate.
    + apply (recurs_iff M P PR (fun x y => In y (ad x)) HA a b Ha Hb). exists d. split; [lia|]. apply E3. discriminate.
    + exact C1.
    + rewrite C2. exact C3.
    + exists d. split; [lia|exact C2].
  - intros H. apply (recurs_iff M P PR (fun x y => In y (ad x)) HA a b Ha Hb) in H. destruct H as (d & Hd & H).
    destruct (CK d Hd) as (stack & E1 & _ & E3). apply E3 in H.
    pose proof (find_some_none _ _ _ _ E d ltac:(apply in_seq; lia)) as E4. cbv beta in E4.
    rewrite E1 in E4. destruct stack; [congruence|discriminate].
Qed.

(** The actions of the nodes of a cycle. *)
Definition acts_of (nodes : list nat) : list (nat * nat) :=
  map (fun x => let '(a, b, _) := uniact_of_id x M in (a, b)) nodes.

Lemma nth_acts_of : forall nodes j, j < length nodes ->
  nth j (acts_of nodes) (0, 0) = (let '(a, b, _) := uniact_of_id (nth j nodes 0) M in (a, b)).
Proof.
  intros nodes j Hj. unfold acts_of.
  set (f := fun x : nat => let '(a, b, _) := uniact_of_id x M in (a, b)).
  rewrite (nth_indep _ (0, 0) (f 0)) by (rewrite map_length; auto). rewrite map_nth. reflexivity.
Qed.

Lemma of_code : forall a b c, in3 M (a, b, c) -> uniact_of_id (code M (a, b, c)) M = (a, b, c).
Proof. intros a b c (Ha & Hb & Hc). apply uniact_of_id3; auto. Qed.

Section Cycle.
Variable nodes : list nat.
Hypothesis Ne : nodes <> [].
Hypothesis Ch : chain (fun x y => In y (adj x)) nodes.
Hypothesis Cl : In (hd 0 nodes) (adj (last nodes 0)).
Let n := length nodes.
Definition nxt (j : nat) : nat := if S j =? n then 0 else S j.

Lemma n_pos : 0 < n.
Proof. unfold n. destruct nodes; [congruence|]. simpl. lia. Qed.

Lemma nxt_lt : forall j, j < n -> nxt j < n.
Proof. intros j Hj. unfold nxt. pose proof n_pos. destruct (Nat.eqb_spec (S j) n); lia. Qed.

Lemma cyc_step : forall j, j < n -> In (nth (nxt j) nodes 0) (adj (nth j nodes 0)).
Proof.
  intros j Hj. unfold nxt. destruct (Nat.eqb_spec (S j) n) as [E|E].
  - rewrite last_nth in Cl. fold n in Cl. replace (n - 1) with j in Cl by lia.
    destruct nodes; [congruence|]. exact Cl.
  - apply (chain_nth _ _ j Ch). fold n. lia.
Qed.

(** Every node is an action of the set that recurs, and the next node starts
    with the value it produces. *)
Lemma node_spec : forall j, j < n -> exists a b c d e g,
  nth j nodes 0 = code M (a, b, d) /\ nth (nxt j) nodes 0 = code M (c, e, g) /\
  in3 M (a, b, d) /\ in3 M (c, e, g) /\ inn s a b c /\ ppg t M a b = c.
Proof.
  intros j Hj. pose proof (cyc_step j Hj) as H. apply adj_iff in H. destruct H as (p & q & E1 & E2 & HC).
  destruct (continues_range M (inn s) (inn_range s) p q HC) as [I1 I2].
  destruct p as [[a b] d], q as [[c e] g]. destruct HC as (H1 & _).
  exists a, b, c, d, e, g. split; [exact E1|]. split; [exact E2|]. split; [exact I1|]. split; [exact I2|].
  split; [exact H1|]. destruct (tab_spec M M0 s Ls Ds) as [Ok HT]. apply HT in H1.
  apply (protocol_ppg M) in H1; auto. tauto.
Qed.

Lemma acts_len : length (acts_of nodes) = n.
Proof. unfold acts_of. apply map_length. Qed.

Lemma acts_claim : forallb (fun ab => ppg t M (fst ab) (snd ab) <? M) (acts_of nodes) = true.
Proof.
  apply forallb_forall. intros ab H. apply (In_nth _ _ (0, 0)) in H. destruct H as (j & Hj & <-).
  rewrite acts_len in Hj. rewrite nth_acts_of by auto.
  destruct (node_spec j Hj) as (a & b & c & d & e & g & E1 & E2 & I1 & I2 & HI & HP).
  rewrite E1, of_code by auto. simpl. rewrite HP. apply Nat.ltb_lt. apply inn_range in HI. tauto.
Qed.

Lemma acts_closed : closed_chain (inn s) (acts_of nodes) (acts_row t M (acts_of nodes)).
Proof.
  split; [unfold acts_row; rewrite map_length; auto|]. split.
  { intros E. apply (f_equal (@length _)) in E. rewrite acts_len in E. pose proof n_pos. simpl in E. lia. }
  rewrite acts_len. intros j Hj. unfold acts_row.
  set (f := fun ab : nat * nat => ppg t M (fst ab) (snd ab)).
  rewrite (nth_indep _ 0 (f (0, 0))) by (rewrite map_length, acts_len; auto). rewrite (map_nth f).
  change (if S j =? n then 0 else S j) with (nxt j).
  rewrite !nth_acts_of by (fold n; auto; apply nxt_lt; auto).
  destruct (node_spec j Hj) as (a & b & c & d & e & g & E1 & E2 & I1 & I2 & HI & HP).
  rewrite E1, E2, !of_code by auto. unfold f. cbn [fst snd]. rewrite HP. auto.
Qed.

Lemma ct_swap : forall (P : protocol) x y, clos_trans _ (continues P) x y -> x <> y ->
  clos_trans _ (continues P) y x -> clos_trans _ (continues P) y y.
Proof. intros. eapply t_trans; eauto. Qed.

(** Every action of the cycle recurs. *)
Lemma node_recurs : forall j, j < n -> 
  path (fun x y => In y (adj x)) (nth j nodes 0) (nth j nodes 0).
Proof.
  intros j Hj.
  assert (F : forall k i, i < n -> S i + k < n -> path (fun x y => In y (adj x)) (nth i nodes 0) (nth (S i + k) nodes 0)).
  { induction k; intros i Hi Hk.
    - replace (S i + 0) with (S i) by lia. apply path_one. pose proof (cyc_step i Hi) as H.
      unfold nxt in H. destruct (Nat.eqb_spec (S i) n); [lia|auto].
    - apply path_more with (nth (S i) nodes 0).
      + pose proof (cyc_step i Hi) as H. unfold nxt in H. destruct (Nat.eqb_spec (S i) n); [lia|auto].
      + replace (S i + S k) with (S (S i) + k) by lia. apply IHk; lia. }
  pose proof n_pos as Np.
  assert (L : path (fun x y => In y (adj x)) (nth (n - 1) nodes 0) (nth 0 nodes 0)).
  { apply path_one. pose proof (cyc_step (n - 1) ltac:(lia)) as H. unfold nxt in H.
    destruct (Nat.eqb_spec (S (n - 1)) n); [auto|lia]. }
  assert (A : j = n - 1 \/ path (fun x y => In y (adj x)) (nth j nodes 0) (nth (n - 1) nodes 0)).
  { destruct (Nat.eq_dec j (n - 1)); auto. right. replace (n - 1) with (S j + (n - 1 - S j)) by lia.
    apply F; lia. }
  assert (B : j = 0 \/ path (fun x y => In y (adj x)) (nth 0 nodes 0) (nth j nodes 0)).
  { destruct (Nat.eq_dec j 0); auto. right. replace j with (S 0 + (j - 1)) by lia. apply F; lia. }
  destruct A as [->|A], B as [B|B].
  - rewrite B in *. auto.
  - eapply ptrans; eauto.
  - subst j. eapply ptrans; eauto.
  - eapply ptrans; [eauto|]. eapply ptrans; eauto.
Qed.

Lemma acts_ids_spec : forall i, In i (acts_ids t M (acts_of nodes)) ->
  exists a b c, inn s a b c /\ i = id_of3 a b c M /\ recurs (inn s) a b.
Proof.
  intros i H. unfold acts_ids in H. apply in_map_iff in H. destruct H as (ab & <- & H).
  apply (In_nth _ _ (0, 0)) in H. destruct H as (j & Hj & <-). rewrite acts_len in Hj.
  rewrite nth_acts_of by auto.
  destruct (node_spec j Hj) as (a & b & c & d & e & g & E1 & E2 & I1 & I2 & HI & HP).
  rewrite E1, of_code by auto. cbn [fst snd]. rewrite HP. exists a, b, c. split; [auto|]. split; [auto|].
  destruct I1 as (Ha & Hb & Hd).
  apply (recurs_iff M (inn s) (inn_range s) (fun x y => In y (adj x)) adj_iff a b Ha Hb).
  exists d. split; auto. pose proof (node_recurs j Hj) as H. rewrite E1 in H. exact H.
Qed.
End Cycle.

Definition recurs_id (i : nat) : Prop :=
  forall a b c, uniact_of_id i M = (a, b, c) -> recurs (inn s) a b.

Lemma leads_loop_spec : forall ids pending maybe,
  (forall i, mem pending i -> mem s i) ->
  (forall i, mem s i -> ~ mem pending i -> recurs_id i) ->
  match leads_loop o t adj oadj ids pending maybe with
  | LFail => False
  | LNil None => exists a b c, inn s a b c /\ ~ recurs (inn u) a b
  | LNil (Some l) => max_period o < max_propagations o /\
      exists acts cs, closed_chain (inn s) acts cs /\
        guided_livelock_ck t M acts (max_propagations o) = Some l
  | LEnd m => m = true <-> maybe = true /\ forall i, In i ids -> mem s i -> recurs_id i
  end.
Proof.
  induction ids as [|i ids IH]; intros pending maybe HS HD; cbn [leads_loop].
  { split; [|tauto]. intros H. split; [auto|]. intros i []. }
  destruct (nth i pending false) eqn:Ep.
  2:{ assert (NI : mem s i -> recurs_id i).
      { intros H. apply HD; auto. unfold mem. congruence. }
      specialize (IH pending maybe HS HD). destruct (leads_loop o t adj oadj ids pending maybe) as [[l|]|m|]; auto.
      rewrite IH. split; intros [H1 H2]; (split; [auto|]).
      - intros k [<-|Hk] Hm; auto.
      - intros k Hk. apply H2. right; auto. }
  assert (Mi : mem s i) by (apply HS; exact Ep).
  destruct (mem_inn M s i Ls Mi) as (a & b & c & HI & Eu & Ei). fold M. rewrite Eu.
  pose proof (inn_range _ _ _ _ HI) as (Ha & Hb & Hc).
  pose proof (cycle_from_spec (inn s) adj a b (inn_range s) adj_iff Ha Hb) as C1.
  destruct (cycle_from M adj a b) as [nodes|].
  - destruct C1 as (Ne & Rc & Ch & Cl & d & Hd & Hh). cbv zeta.
    change (map (fun x : nat => let '(a0, b0, _) := uniact_of_id x M in (a0, b0)) nodes) with (acts_of nodes).
    rewrite acts_claim by auto.
    set (pending' := fold_left _ _ pending).
    assert (Ri : recurs_id i).
    { intros a' b' c' E. rewrite Eu in E. injection E as <- <- <-. auto. }
    assert (HS' : forall k, mem pending' k -> mem s k).
    { intros k Hk. apply mem_clears in Hk. apply HS. tauto. }
    assert (HD' : forall k, mem s k -> ~ mem pending' k -> recurs_id k).
    { intros k Hk Hn. destruct (mem_dec pending k) as [Hp|Hp]; [|auto].
      destruct (in_dec Nat.eq_dec k (acts_ids t M (acts_of nodes))) as [Hin|Hin].
      - apply acts_ids_spec in Hin; auto. destruct Hin as (x & y & z & H1 & -> & H2).
        intros x' y' z' E. apply inn_range in H1. rewrite uniact_of_id3 in E by tauto.
        injection E as <- <- <-. auto.
      - exfalso. apply Hn. apply mem_clears. auto. }
    specialize (IH pending' maybe HS' HD').
    assert (Go : match leads_loop o t adj oadj ids pending' maybe with
      | LFail => False
      | LNil None => exists a b c, inn s a b c /\ ~ recurs (inn u) a b
      | LNil (Some l) => max_period o < max_propagations o /\
        exists acts cs, closed_chain (inn s) acts cs /\
          guided_livelock_ck t M acts (max_propagations o) = Some l
      | LEnd m => m = true <-> maybe = true /\ forall k, In k (i :: ids) -> mem s k -> recurs_id k
      end).
    { destruct (leads_loop o t adj oadj ids pending' maybe) as [[l|]|m|]; auto.
      rewrite IH. split; intros [H1 H2]; (split; [auto|]).
      - intros k [<-|Hk] Hm; auto.
      - intros k Hk. apply H2. right; auto. }
    destruct (Nat.ltb_spec (max_period o) (max_propagations o)) as [Hg|Hg]; cbn [andb]; [|exact Go].
    destruct (length (acts_of nodes) <=? max_period o); [|exact Go].
    destruct (guided_livelock_ck t M (acts_of nodes) (max_propagations o)) as [l|] eqn:Eg; [|exact Go].
    split; auto. exists (acts_of nodes), (acts_row t M (acts_of nodes)). split; auto. apply acts_closed; auto.
  - pose proof (cycle_from_spec (inn u) oadj a b (inn_range u) oadj_iff Ha Hb) as C2.
    destruct (cycle_from M oadj a b) as [nodes|].
    + specialize (IH pending false HS HD).
      destruct (leads_loop o t adj oadj ids pending false) as [[l|]|m|]; auto.
      split.
      * intros H. apply IH in H. destruct H; discriminate.
      * intros [_ H]. exfalso. apply C1. apply (H i (or_introl eq_refl) Mi a b c Eu).
    + exists a, b, c. auto.
Qed.

(** The answers of the check. *)
Lemma leads_spec :
  match periodic_leads_semick o s t cand with
  | LFail => exists row col, livelock_semick (max_period o) t M = RYes row col /\
      livelock_ppgs t M row col = None
  | LNil None => exists a b c, inn s a b c /\ ~ recurs (inn u) a b
  | LNil (Some l) =>
      (exists row col, livelock_semick (max_period o) t M = RYes row col /\
         livelock_ppgs t M row col = Some l) \/
      (max_period o < max_propagations o /\
       exists acts cs, closed_chain (inn s) acts cs /\
         guided_livelock_ck t M acts (max_propagations o) = Some l)
  | LEnd m => m = true <-> livelock_semick (max_period o) t M = RMay /\
                forall a b c, inn s a b c -> recurs (inn s) a b
  end.
Proof.
  unfold periodic_leads_semick. fold M. fold N. change (union s cand) with u. fold adj oadj.
  pose proof (leads_loop_spec (seq 0 N) s) as L.
  assert (X : (forall i, In i (seq 0 N) -> mem s i -> recurs_id i) <->
     forall a b c, inn s a b c -> recurs (inn s) a b).
  { split.
    - intros H a b c HI. pose proof (inn_range _ _ _ _ HI) as (Ha & Hb & Hc).
      apply inn_mem in HI; auto. apply (H (id_of3 a b c M)) with (c := c); [|tauto|].
      + apply in_seq. pose proof (id3_lt M a b c Ha Hb Hc). unfold N. lia.
      + apply uniact_of_id3; auto.
    - intros H i _ Hi a b c E. destruct (mem_inn M s i Ls Hi) as (a' & b' & c' & HI & Eu & _).
      rewrite E in Eu. injection Eu as -> -> ->. eauto. }
  destruct (livelock_semick (max_period o) t M) as [| |row col] eqn:Es; cbv zeta.
  - specialize (L false ltac:(auto) ltac:(tauto)).
    destruct (leads_loop _ _ _ _ _ _ _) as [[l|]|m|]; auto.
    + rewrite L. split; intros [H _]; discriminate.
    + exfalso; auto.
  - specialize (L true ltac:(auto) ltac:(tauto)).
    destruct (leads_loop _ _ _ _ _ _ _) as [[l|]|m|]; auto.
    + rewrite L, X. tauto.
    + exfalso; auto.
  - destruct (livelock_ppgs t M row col) as [l|] eqn:El; [left|]; exists row, col; auto.
Qed.
End Leads.
