(** The recursive search: exactly which protocols are printed below a node. *)
From Coq Require Import List Arith Lia Bool.
From Verif Require Import FinLib UniModel UniSpec UniProofs LivelockModel LivelockSpec LivelockProofs
  TileModel TileSpec TileProofs TileProofs2 CanonModel CanonSpec CanonProofs
  GenModel GenSpec GenProofs GenProofs2 GenProofs3 GenProofs4 GenProofs5.
Import ListNotations.

(** Number of occupied positions from [lo] up to (not including) [up]. *)
Definition cntp (M : nat) (t : list nat) (lo up : nat) : nat :=
  length (filter (fun p => nth p t M <? M) (seq lo (up - lo))).

Lemma cntp_split : forall M t lo mid up, lo <= mid -> mid <= up ->
  cntp M t lo up = cntp M t lo mid + cntp M t mid up.
Proof.
  intros M t lo mid up H1 H2. unfold cntp. replace (up - lo) with ((mid - lo) + (up - mid)) by lia.
  rewrite seq_app, filter_app, app_length. replace (lo + (mid - lo)) with mid by lia. reflexivity.
Qed.

Lemma cntp_ext : forall M t t' lo up,
  (forall p, lo <= p < up -> (nth p t M < M <-> nth p t' M < M)) -> cntp M t lo up = cntp M t' lo up.
Proof.
  intros M t t' lo up H. unfold cntp. f_equal. apply filter_ext_in. intros p Hp. apply in_seq in Hp.
  specialize (H p ltac:(lia)). destruct (Nat.ltb_spec (nth p t M) M), (Nat.ltb_spec (nth p t' M) M); auto; lia.
Qed.

Lemma cntp_zero : forall M t lo up, (forall p, lo <= p < up -> ~ nth p t M < M) -> cntp M t lo up = 0.
Proof.
  intros M t lo up H. unfold cntp.
  assert (E : forall l, (forall p, In p l -> ~ nth p t M < M) -> filter (fun p => nth p t M <? M) l = []).
  { induction l as [|x l IH]; intros Hl; [reflexivity|]. simpl.
    destruct (Nat.ltb_spec (nth x t M) M); [exfalso; apply (Hl x); [left|]; auto|].
    apply IH. intros p Hp. apply Hl. right. auto. }
  rewrite E; [reflexivity|]. intros p Hp. apply in_seq in Hp. apply H. lia.
Qed.

Lemma cntp_one : forall M t p, nth p t M < M -> cntp M t p (S p) = 1.
Proof.
  intros M t p H. unfold cntp. replace (S p - p) with 1 by lia. simpl.
  destruct (Nat.ltb_spec (nth p t M) M); [reflexivity|lia].
Qed.

(** The actions up to [x]. *)
Definition cut (s : list bool) (x : nat) : list bool :=
  firstn (S x) s ++ repeat false (length s - S x).

Lemma cut_length : forall s x, x < length s -> length (cut s x) = length s.
Proof. intros s x H. unfold cut. rewrite app_length, firstn_length, repeat_length. lia. Qed.

Lemma mem_cut : forall s x y, x < length s -> (mem (cut s x) y <-> mem s y /\ y <= x).
Proof.
  intros s x y Hx. unfold mem, cut.
  assert (Lf : length (firstn (S x) s) = S x) by (rewrite firstn_length; lia).
  destruct (Nat.lt_ge_cases y (S x)).
  - rewrite app_nth1 by lia.
    assert (E : nth y (firstn (S x) s) false = nth y s false).
    { clear - H. revert s y H. generalize (S x). induction n; intros s y H; [lia|].
      destruct s; [destruct y; reflexivity|]. destruct y; [reflexivity|]. simpl. apply IHn. lia. }
    rewrite E. split; [|tauto]. intros Hy. split; [auto|lia].
  - rewrite app_nth2 by lia. rewrite nth_repeat'. split; [discriminate|]. lia.
Qed.

Section Search.
Variable o : SearchOpt.
Notation M := (domsz o).
Notation N := (domsz o * domsz o * domsz o).
Notation inn := (in_set (domsz o)).
Notation nw := (nw_disabling o).
Hypothesis M0 : M <> 0.

Definition tab (s : list bool) : list nat := ppgfun_of_actset s M.
Definition pos (x : nat) : nat := x / M.

Definition good (s : list bool) : Prop :=
  length s = N /\ admissible nw (inn s) /\ canonical_ck (tab s) M = true /\
  livelock_semick (max_period o) (tab s) M = RMay /\
  forall a b c, inn s a b c -> recurs (inn s) a b.

Definition exact : Prop := max_propagations o <= max_period o.
Definition kept (s : list bool) : Prop := exact /\ good s.

Lemma pos_eq : forall x, x = pos x * M + x mod M /\ x mod M < M.
Proof.
  intros x. unfold pos. pose proof (Nat.div_mod x M M0). pose proof (Nat.mod_upper_bound x M M0). lia.
Qed.

Lemma pos_lt : forall x, x < N -> pos x < M * M.
Proof. intros x H. unfold pos. apply Nat.div_lt_upper_bound; lia. Qed.

Lemma pos_mono : forall x y, x <= y -> pos x <= pos y.
Proof. intros x y H. unfold pos. apply Nat.div_le_mono; lia. Qed.

Lemma pos_of : forall p v, v < M -> pos (p * M + v) = p.
Proof. intros p v H. unfold pos. rewrite Nat.div_add_l by auto. rewrite Nat.div_small by auto. lia. Qed.

Lemma trip_pos : forall x a b c, x < N -> uniact_of_id x M = (a, b, c) ->
  id_of2 a b M = pos x /\ a < M /\ b < M /\ c < M /\ x = id_of3 a b c M.
Proof.
  intros x a b c Hx E. pose proof (uniact_of_id_range M x Hx) as R. rewrite E in R.
  destruct R as (Ha & Hb & Hc & Ex). split; [|auto].
  rewrite <- Ex. unfold id_of3. rewrite pos_of by auto. reflexivity.
Qed.

Lemma mem_id : forall s a b c, length s = N -> a < M -> b < M -> c < M ->
  (inn s a b c <-> mem s (id_of3 a b c M)).
Proof. intros s a b c L Ha Hb Hc. rewrite inn_mem by auto. tauto. Qed.

Lemma tab_mem : forall s p v, length s = N -> deterministic (inn s) -> p < M * M -> v < M ->
  (nth p (tab s) M = v <-> mem s (p * M + v)).
Proof.
  intros s p v L D Hp Hv. destruct (split_pos M p Hp) as (a & b & Ha & Hb & ->).
  destruct (tab_spec M M0 s L D) as [Ok HT].
  change (id_of2 a b M * M + v) with (id_of3 a b v M). rewrite <- mem_id by auto.
  rewrite <- HT, (table_protocol_nth M (ppgfun_of_actset s M)) by (auto; apply Ok). unfold tab. tauto.
Qed.

Lemma tab_occ : forall s p, length s = N -> deterministic (inn s) -> p < M * M ->
  (nth p (tab s) M < M <-> exists v, v < M /\ mem s (p * M + v)).
Proof.
  intros s p L D Hp. split.
  - intros H. exists (nth p (tab s) M). split; auto. apply tab_mem; auto.
  - intros (v & Hv & H). apply tab_mem in H; auto. lia.
Qed.

Lemma tab_none : forall s p, length s = N -> deterministic (inn s) -> p < M * M ->
  (forall v, v < M -> ~ mem s (p * M + v)) -> nth p (tab s) M = M.
Proof.
  intros s p L D Hp H. destruct (tab_spec M M0 s L D) as [Ok _].
  pose proof (nth_le M (tab s) p Ok). destruct (Nat.eq_dec (nth p (tab s) M) M); auto. exfalso.
  destruct (proj1 (tab_occ s p L D Hp) ltac:(lia)) as (v & Hv & Hm). apply (H v Hv Hm).
Qed.

Lemma det_pos : forall s x y, length s = N -> deterministic (inn s) -> mem s x -> mem s y ->
  pos x = pos y -> x = y.
Proof.
  intros s x y L D Hx Hy E. pose proof (mem_lt _ _ Hx) as Lx. pose proof (mem_lt _ _ Hy) as Ly.
  destruct (pos_eq x) as [E1 R1], (pos_eq y) as [E2 R2].
  pose proof (pos_lt x ltac:(lia)) as Px.
  rewrite E1 in Hx. rewrite E2, <- E in Hy.
  apply tab_mem in Hx; auto. apply tab_mem in Hy; auto. congruence.
Qed.

Lemma tab_inj : forall s s', length s = N -> length s' = N -> deterministic (inn s) ->
  deterministic (inn s') -> tab s = tab s' -> s = s'.
Proof.
  intros s s' L L' D D' E. rewrite <- (set_of_set M M0 s L D), <- (set_of_set M M0 s' L' D').
  unfold tab in E. rewrite E. reflexivity.
Qed.

Lemma good_det : forall s, good s -> length s = N /\ deterministic (inn s).
Proof. intros s (L & (D & _) & _). auto. Qed.

(** * Extending a set by a candidate *)
Definition based (x : nat) : Prop :=
  let '(a, b, c) := uniact_of_id x M in b <> c /\ (nw = true -> a <> c).
Definition compat (c d : list bool) : Prop :=
  forall x, mem c x -> based x /\ forall y, mem d y -> ~ conf nw (uniact_of_id y M) (uniact_of_id x M).

Lemma compat_sub : forall c c' d, sub c' c -> compat c d -> compat c' d.
Proof. intros c c' d H HC x Hx. apply HC. auto. Qed.

Lemma inn_trip : forall s a b c, length s = N -> inn s a b c ->
  mem s (id_of3 a b c M) /\ uniact_of_id (id_of3 a b c M) M = (a, b, c).
Proof.
  intros s a b c L (Ha & Hb & Hc & H). split; [|apply uniact_of_id3; auto].
  apply mem_id; auto. repeat split; auto.
Qed.

Lemma adm_add : forall d c act, length d = N -> length c = N -> admissible nw (inn d) -> compat c d ->
  mem c act -> admissible nw (inn (upd d act true)).
Proof.
  intros d c act Ld Lc Hd HC Ha. pose proof (mem_lt _ _ Ha) as Hlt.
  destruct (uniact_of_id act M) as [[x y] z] eqn:E.
  destruct (trip_pos act x y z ltac:(lia) E) as (_ & Hx & Hy & Hz & Ei).
  destruct (HC act Ha) as [Hb Hc]. unfold based in Hb. rewrite E in Hb.
  apply (admissible_add nw (inn d) _ x y z); auto; try tauto.
  - intros a b c'. rewrite !inn_mem by (try rewrite upd_length; auto). rewrite mem_set. split.
    + intros (H1 & H2 & H3 & [H4|[H4 _]]); [left; auto|right].
      rewrite Ei in H4. apply id3_inj in H4; auto. destruct H4 as (-> & -> & ->). auto.
    + intros [(H1 & H2 & H3 & H4)|H]; [tauto|]. injection H as -> -> ->.
      repeat split; auto. right. split; [auto|lia].
  - intros a b c' H. apply inn_trip in H; auto. destruct H as [H E'].
    specialize (Hc _ H). rewrite E, E' in Hc. auto.
Qed.

Lemma adm_based : forall s x, length s = N -> admissible nw (inn s) -> mem s x -> based x.
Proof.
  intros s x L HA Hx. destruct (mem_inn M s x L Hx) as (a & b & c & HI & E & _).
  unfold based. rewrite E. apply admissible_pairs in HA. destruct HA as (H1 & H2 & _). split; eauto.
Qed.

Lemma adm_conf : forall s x y, length s = N -> admissible nw (inn s) -> mem s x -> mem s y -> x <> y ->
  ~ conf nw (uniact_of_id x M) (uniact_of_id y M).
Proof.
  intros s x y L HA Hx Hy Hn. destruct (mem_inn M s x L Hx) as (a & b & c & HI & E & Ei).
  destruct (mem_inn M s y L Hy) as (a' & b' & c' & HI' & E' & Ei'). rewrite E, E'.
  apply admissible_pairs in HA. destruct HA as (_ & _ & H). apply H; auto. intros Eq.
  injection Eq as -> -> ->. congruence.
Qed.

Lemma zero_out : forall s, length s = N -> admissible nw (inn s) -> ~ mem s 0.
Proof.
  intros s L HA H. apply (adm_based s 0 L HA) in H. unfold based, uniact_of_id in H.
  rewrite Nat.div_0_l, Nat.mod_0_l, Nat.div_0_l in H by auto. tauto.
Qed.

(** The new candidates. *)
Definition newc (c : list bool) (act : nat) : list bool := trim_coexist (upd c act false) act M nw.

Lemma newc_spec : forall c act x, length c = N -> act < N ->
  (mem (newc c act) x <-> mem c x /\ x <> act /\ ~ conf nw (uniact_of_id act M) (uniact_of_id x M)).
Proof.
  intros c act x L Ha. unfold newc. destruct (Nat.lt_ge_cases x N) as [Hx|Hx].
  - destruct (uniact_of_id x M) as [[a b] e] eqn:E.
    destruct (trip_pos x a b e Hx E) as (_ & H1 & H2 & H3 & Ex). rewrite Ex.
    rewrite (trim_spec M M0 (upd c act false) act nw a b e (uniact_of_id act M)) by (auto; rewrite upd_length; auto).
    rewrite mem_clear. tauto.
  - split; intros H; exfalso.
    + apply mem_lt in H. rewrite trim_length, upd_length in H. lia.
    + destruct H as [H _]. apply mem_lt in H. lia.
Qed.

Lemma newc_length : forall c act, length c = N -> length (newc c act) = N.
Proof. intros. unfold newc. rewrite trim_length, upd_length. auto. Qed.

Lemma newc_compat : forall c d act, length c = N -> length d = N -> mem c act -> compat c d ->
  compat (newc c act) (upd d act true).
Proof.
  intros c d act L Ld Ha HC x Hx. pose proof (mem_lt _ _ Ha). apply newc_spec in Hx; auto; [|lia].
  destruct Hx as (H1 & H2 & H3). destruct (HC x H1) as [B C]. split; auto. intros y Hy.
  apply mem_set in Hy. destruct Hy as [Hy|[-> _]]; auto.
Qed.

Lemma compat_pos : forall c d x y, compat c d -> mem c x -> mem d y -> x < N -> y < N -> pos x <> pos y.
Proof.
  intros c d x y HC Hx Hy Lx Ly E. destruct (HC x Hx) as [_ H]. apply (H y Hy).
  destruct (uniact_of_id x M) as [[a b] e] eqn:Ex, (uniact_of_id y M) as [[a' b'] e'] eqn:Ey.
  destruct (trip_pos x a b e Lx Ex) as (P1 & _ & Hb & _). destruct (trip_pos y a' b' e' Ly Ey) as (P2 & _ & Hb' & _).
  assert (Q : id_of2 a b M = id_of2 a' b' M) by congruence. apply id2_inj in Q; auto. destruct Q as [-> ->].
  unfold conf. tauto.
Qed.

(** * Depth *)
Variable hi : nat.
Definition cnt (s : list bool) (x : nat) : nat := 1 + cntp M (tab s) (S (pos hi)) (S (pos x)).
Definition far (x : nat) : Prop := dfs_threshold o < M * M - 1 - pos x.
Definition stops (s : list bool) (x : nat) : Prop :=
  mem s x /\ far x /\ cnt s x = max_depth o /\ exists z, mem s z /\ x < z.

Lemma cnt_seg : forall s d act, length s = N -> length d = N -> deterministic (inn s) ->
  deterministic (inn d) -> mem d act -> (forall y, mem d y -> y <= act) ->
  (forall x, x <= act -> (mem s x <-> mem d x)) -> cnt s act = cnt d act.
Proof.
  intros s d act Ls Ld Ds Dd Ha Hm Hs. unfold cnt. f_equal. apply cntp_ext. intros p Hp.
  pose proof (mem_lt _ _ Ha) as Hlt. pose proof (pos_lt act ltac:(lia)) as Hpl.
  rewrite !tab_occ by (auto; lia). split; intros (v & Hv & H); exists v; (split; [auto|]).
  - destruct (Nat.le_gt_cases (p * M + v) act) as [|Hgt]; [apply Hs; auto|]. exfalso.
    assert (E : p * M + v = act).
    { apply (det_pos s); auto; [apply Hs; auto|]. rewrite pos_of by auto.
      pose proof (pos_mono act (p * M + v) ltac:(lia)) as Q. rewrite pos_of in Q by auto. lia. }
    lia.
  - apply Hs; auto.
Qed.

Lemma cnt_add : forall d act i, length d = N -> deterministic (inn d) -> 
  deterministic (inn (upd d i true)) -> i < N -> hi <= act -> act < i -> pos act <> pos i ->
  (forall y, mem d y -> y <= act) -> cnt (upd d i true) i = cnt d act + 1.
Proof.
  intros d act i L D D' Hi Hh Hlt Hp Hm. unfold cnt.
  pose proof (pos_mono act i ltac:(lia)) as P1. pose proof (pos_mono hi act Hh) as P2.
  pose proof (pos_lt i Hi) as P3. assert (L' : length (upd d i true) = N) by (rewrite upd_length; auto).
  rewrite (cntp_split M _ (S (pos hi)) (S (pos act)) (S (pos i))) by lia.
  rewrite (cntp_split M _ (S (pos act)) (pos i) (S (pos i))) by lia.
  rewrite (cntp_one M _ (pos i)).
  2:{ apply tab_occ; auto. destruct (pos_eq i) as [E R]. exists (i mod M). split; auto.
      rewrite <- E. apply mem_set. right. split; [auto|lia]. }
  rewrite (cntp_zero M _ (S (pos act)) (pos i)).
  2:{ intros p Hp'. rewrite tab_occ by (auto; lia). intros (v & Hv & H). apply mem_set in H.
      destruct H as [H|[H _]].
      - apply Hm in H. apply pos_mono in H. rewrite pos_of in H by auto. lia.
      - apply (f_equal pos) in H. rewrite pos_of in H by auto. lia. }
  rewrite (cntp_ext M (tab (upd d i true)) (tab d)); [lia|].
  intros p Hp'. rewrite !tab_occ by (auto; lia). split; intros (v & Hv & H); exists v; (split; [auto|]).
  - apply mem_set in H. destruct H as [H|[H _]]; auto. exfalso.
    apply (f_equal pos) in H. rewrite pos_of in H by auto. lia.
  - apply mem_set. auto.
Qed.

(** * Specification of a node *)
Definition fr (s : list bool) : Prop :=
  bfs o = true /\ length s = N /\ admissible nw (inn s) /\
  (trust_given o = false -> canonical_ck (tab s) M = true) /\
  exists x, mem s x /\ (forall y, mem s y -> y <= x) /\ hi <= x /\ far x /\ cnt s x = max_depth o.

(** The set continues [d] from position [lo] with candidates from [c]. *)
Definition cset (d c : list bool) (lo : nat) (s : list bool) : Prop :=
  (forall x, x < lo -> (mem s x <-> mem d x)) /\ (forall x, lo <= x -> mem s x -> mem c x).

Definition post (base : nat) (cond fcond : list bool -> Prop) (p f : list (list nat)) : Prop :=
  NoDup p /\
  (forall t, In t p -> exists s, tab s = t /\ good s /\ cond s /\ forall x, base <= x -> ~ stops s x) /\
  (exact -> forall s, good s -> cond s -> (forall x, base <= x -> ~ stops s x) -> In (tab s) p) /\
  (forall t, In t f -> exists s, tab s = t /\ fr s /\ fcond s) /\
  (exact -> bfs o = true -> forall s x, good s -> cond s -> base <= x -> stops s x ->
     exists x', base <= x' /\ stops s x' /\ In (tab (cut s x')) f).

Record node (d c : list bool) (l : list level) (act depth : nat) : Prop := {
  n_chain : chain_ok N ((d, c) :: l);
  n_act : mem c act;
  n_lt : forall y, mem d y -> y < act;
  n_compat : compat c d;
  n_adm : admissible nw (inn d);
  n_hi : hi <= act;
  n_depth : depth = cnt (upd d act true) act;
  n_small : depth <= pos act + 1
}.

Definition ncond (d c : list bool) (act depth : nat) (s : list bool) : Prop :=
  cset (upd d act true) c (act + 1) s /\
  (depth = 1 -> trust_given o = true -> s <> upd d act true).

Definition rspec (rec : list (list bool) -> nat -> result) (d : list bool) (depth : nat)
    (lo : nat) : Prop :=
  forall c l i, lo < i -> node d c l i depth ->
    exists l2 p f, rec (map snd ((d, c) :: l)) i = Some (map snd l2, p, f) /\
      Forall2 (shr kept) ((d, c) :: l) l2 /\ chain_ok N l2 /\
      post i (ncond d c i depth) (cset (upd d i true) c (i + 1)) p f.

(** The loop over the next actions. *)
Section Loop.
Variables (rec : list (list bool) -> nat -> result) (d : list bool) (act depth : nat).
Hypothesis Hrec : rspec rec d (depth + 1) act.
Hypothesis Ld : length d = N.
Hypothesis Hact : mem d act.
Hypothesis Hmax : forall y, mem d y -> y <= act.
Hypothesis Hadm : admissible nw (inn d).
Hypothesis Hhi : hi <= act.
Hypothesis Hdep : depth = cnt d act.
Hypothesis Hsmall : depth <= pos act + 1.

Definition lcond (c : list bool) (i : nat) (s : list bool) : Prop :=
  cset d c i s /\ exists x, i <= x /\ mem s x.

Lemma loop_node : forall c l i, chain_ok N ((d, c) :: l) -> compat c d -> act < i -> mem c i ->
  node d c l i (depth + 1).
Proof.
  intros c l i HC Hco Hi Hm. pose proof HC as ((_ & Lc & _) & _). cbn [snd] in Lc.
  pose proof (mem_lt _ _ Hm) as Hlt. pose proof (mem_lt _ _ Hact) as Hlt'.
  assert (Hp : pos act <> pos i).
  { intros E. apply (compat_pos c d i act); auto; lia. }
  pose proof (adm_add d c i Ld Lc Hadm Hco Hm) as HA.
  constructor; auto.
  - intros y Hy. apply Hmax in Hy. lia.
  - lia.
  - rewrite (cnt_add d act i); auto; try lia; [apply Hadm|apply HA].
  - pose proof (pos_mono act i ltac:(lia)). lia.
Qed.

Lemma loop_spec : forall n i c l, i + n = N -> act < i -> chain_ok N ((d, c) :: l) -> compat c d ->
  exists c2 l2 p f, next_loop rec (seq i n) (map snd ((d, c) :: l)) = Some (map snd ((d, c2) :: l2), p, f) /\
    Forall2 (shr kept) l l2 /\ chain_ok N l2 /\ post i (lcond c i) (lcond c i) p f.
Proof.
  induction n; intros i c l Hn Hi HC Hco.
  { exists c, l, [], []. split; [reflexivity|]. split; [apply shrs_refl|]. split; [apply HC|].
    assert (Hno : forall s, length s = N -> ~ lcond c i s).
    { intros s L (_ & x & Hx & Hm). apply mem_lt in Hm. lia. }
    split; [constructor|]. split; [easy|]. split.
    - intros _ s Hg Hc. exfalso. apply (Hno s); auto. apply Hg.
    - split; [easy|]. intros _ _ s x Hg Hc. exfalso. apply (Hno s); auto. apply Hg. }
  pose proof HC as ((_ & Lc & Dj) & _). cbn [fst snd] in Lc, Dj.
  assert (Hdi : ~ mem d i) by (intros H; apply Hmax in H; lia).
  cbn [seq next_loop map hd snd]. destruct (nth i c false) eqn:Ec.
  - assert (Hci : mem c i) by exact Ec.
    destruct (Hrec c l i Hi (loop_node c l i HC Hco Hi Hci)) as (l2 & p1 & f1 & E & HS & HC2 & HP).
    cbn [map snd] in E. rewrite E.
    destruct l2 as [|[d' c'] l2]; [inversion HS|].
    inversion_clear HS as [|? ? ? ? S1 S2]. destruct S1 as (E1 & E2 & E3 & _). cbn [fst snd] in *. subst d'.
    cbn [map hd tl snd].
    pose proof HC2 as ((_ & Lc' & _) & _). cbn [snd] in Lc'.
    assert (HC3 : chain_ok N ((d, upd c' i false) :: l2)).
    { apply (chain_drop N d c'); auto; [rewrite upd_length; auto|]. intros x Hx. apply mem_clear in Hx. tauto. }
    assert (Hco3 : compat (upd c' i false) d).
    { apply (compat_sub c); auto. intros x Hx. apply mem_clear in Hx. apply E2. tauto. }
    destruct (IHn (S i) (upd c' i false) l2 ltac:(lia) ltac:(lia) HC3 Hco3)
      as (c3 & l3 & p2 & f2 & E4 & S4 & C4 & P4).
    cbn [map snd] in E4. rewrite E4. exists c3, l3, (p1 ++ p2), (f1 ++ f2).
    split; [reflexivity|]. split; [eapply shrs_trans; eauto|]. split; [auto|].
    destruct HP as (A1 & A2 & A3 & A4 & A5), P4 as (B1 & B2 & B3 & B4 & B5).
    (* sets found below [i] *)
    assert (F1 : forall s, cset (upd d i true) c (i + 1) s -> mem s i /\ lcond c i s).
    { intros s [H1 H2]. assert (Hs : mem s i).
      { apply H1; [lia|]. apply mem_set. right. split; [auto|]. apply mem_lt in Hci. lia. }
      split; auto. split; [|exists i; auto]. split.
      - intros x Hx. rewrite H1 by lia. rewrite mem_set. split; [|tauto]. intros [H|[-> _]]; [auto|lia].
      - intros x Hx Hm. destruct (Nat.eq_dec x i) as [->|]; auto. apply H2; auto. lia. }
    assert (F2 : forall s, lcond (upd c' i false) (S i) s -> ~ mem s i /\ lcond c i s).
    { intros s [[H1 H2] (x & Hx & Hm)]. split.
      - intros H. apply H1 in H; auto.
      - split; [|exists x; split; [lia|auto]]. split.
        + intros y Hy. apply H1. lia.
        + intros y Hy Hs. destruct (Nat.eq_dec y i) as [->|]; auto. apply H2 in Hs; [|lia].
          apply mem_clear in Hs. apply E2. tauto. }
    assert (G : forall s, kept s -> lcond c i s ->
       ncond d c i (depth + 1) s /\ mem s i \/ lcond (upd c' i false) (S i) s /\ ~ mem s i).
    { intros s Hk [[H1 H2] (x & Hx & Hm)]. destruct (mem_dec s i) as [Hs|Hs].
      - left. split; auto. split.
        + split.
          * intros y Hy. rewrite mem_set. destruct (Nat.eq_dec y i) as [->|].
            -- split; [intros _; right; split; [auto|apply mem_lt in Hci; lia]|auto].
            -- rewrite H1 by lia. split; [auto|]. intros [|[? _]]; [auto|lia].
          * intros y Hy. apply H2. lia.
        + pose proof (n_depth _ _ _ _ _ (loop_node c l i HC Hco Hi Hci)). unfold cnt in Hdep. lia.
      - right. split; auto. split.
        + split.
          * intros y Hy. destruct (Nat.eq_dec y i) as [->|]; [tauto|]. apply H1. lia.
          * intros y Hy Hs'. apply mem_clear. split; [|lia]. apply (E3 s); auto.
            -- intros z Hz. apply H1; auto. apply Hmax in Hz. lia.
            -- apply H2; auto. lia.
        + exists x. split; auto. destruct (Nat.eq_dec x i) as [->|]; [tauto|lia]. }
    split; [|split; [|split; [|split]]].
    + assert (Dis : forall t, In t p1 -> ~ In t p2).
      { intros t H1 H2. apply A2 in H1. apply B2 in H2. destruct H1 as (s1 & T1 & G1 & [N1 _] & _).
        destruct H2 as (s2 & T2 & G2 & N2 & _). apply good_det in G1, G2.
        assert (s1 = s2) by (apply tab_inj; try tauto; congruence). subst s2.
        apply F1 in N1. apply F2 in N2. tauto. }
      clear - A1 B1 Dis. induction p1 as [|x p1 IH]; [auto|]. inversion A1; subst. simpl. constructor.
      * rewrite in_app_iff. intros [H|H]; [auto|]. apply (Dis x); [left|]; auto.
      * apply IH; auto. intros t Ht. apply Dis. right. auto.
    + intros t Ht. apply in_app_iff in Ht. destruct Ht as [Ht|Ht].
      * apply A2 in Ht. destruct Ht as (s & T & Gs & [Cs _] & St). exists s. split; [auto|]. split; [auto|].
        split; [apply F1; auto|auto].
      * apply B2 in Ht. destruct Ht as (s & T & Gs & Cs & St). exists s. split; [auto|]. split; [auto|].
        apply F2 in Cs. split; [tauto|]. intros x Hx H. destruct (Nat.eq_dec x i) as [->|].
        -- destruct H as [H _]. tauto.
        -- apply (St x); auto. lia.
    + intros He s Gs Cs St. apply in_app_iff.
      destruct (G s (conj He Gs) Cs) as [[H _]|[H _]].
      * left. apply A3; auto.
      * right. apply B3; auto. intros x Hx. apply St. lia.
    + intros t Ht. apply in_app_iff in Ht. destruct Ht as [Ht|Ht].
      * apply A4 in Ht. destruct Ht as (s & T & Fs & Cs). exists s. split; [auto|]. split; [auto|]. apply F1; auto.
      * apply B4 in Ht. destruct Ht as (s & T & Fs & Cs). exists s. split; [auto|]. split; [auto|]. apply F2; auto.
    + intros He Hb s x Gs Cs Hx St. destruct (G s (conj He Gs) Cs) as [[H _]|[H Hn']].
      * destruct (A5 He Hb s x Gs H Hx St) as (x' & X1 & X2 & X3). exists x'. split; [auto|]. split; [auto|].
        apply in_or_app. auto.
      * assert (Hx' : S i <= x). { destruct (Nat.eq_dec x i) as [->|]; [|lia]. destruct St as [St _]. tauto. }
        destruct (B5 He Hb s x Gs H Hx' St) as (x' & X1 & X2 & X3). exists x'. split; [lia|]. split; [auto|].
        apply in_or_app. auto.
  - assert (Hci : ~ mem c i) by (unfold mem; congruence).
    destruct (IHn (S i) c l ltac:(lia) ltac:(lia) HC Hco) as (c3 & l3 & p2 & f2 & E4 & S4 & C4 & P4).
    cbn [map snd] in E4. rewrite E4. exists c3, l3, p2, f2.
    split; [reflexivity|]. split; [auto|]. split; [auto|].
    assert (F : forall s, lcond c (S i) s <-> lcond c i s).
    { intros s. split.
      - intros [[H1 H2] (x & Hx & Hm)]. split; [|exists x; split; [lia|auto]]. split.
        + intros y Hy. apply H1. lia.
        + intros y Hy Hs. destruct (Nat.eq_dec y i) as [->|]; [|apply H2; auto; lia].
          exfalso. apply H1 in Hs; auto.
      - intros [[H1 H2] (x & Hx & Hm)]. assert (Hs : ~ mem s i) by (intros H; apply Hci; apply H2; auto).
        split; [|exists x; split; [|auto]; destruct (Nat.eq_dec x i) as [->|]; [tauto|lia]]. split.
        + intros y Hy. destruct (Nat.eq_dec y i) as [->|]; [tauto|]. apply H1. lia.
        + intros y Hy. apply H2. lia. }
    assert (F' : forall s, lcond c i s -> ~ mem s i).
    { intros s [[_ H2] _] H. apply Hci. apply H2; auto. }
    destruct P4 as (B1 & B2 & B3 & B4 & B5).
    split; [auto|]. split; [|split; [|split]].
    + intros t Ht. apply B2 in Ht. destruct Ht as (s & T & Gs & Cs & St). exists s. apply F in Cs.
      split; [auto|]. split; [auto|]. split; [auto|]. intros x Hx H. destruct (Nat.eq_dec x i) as [->|].
      * destruct H as [H _]. apply (F' s); auto.
      * apply (St x); auto. lia.
    + intros He s Gs Cs St. apply B3; auto; [apply F; auto|]. intros x Hx. apply St. lia.
    + intros t Ht. apply B4 in Ht. destruct Ht as (s & T & Fs & Cs). exists s. apply F in Cs. auto.
    + intros He Hb s x Gs Cs Hx St.
      assert (Hx' : S i <= x).
      { destruct (Nat.eq_dec x i) as [->|]; [|lia]. destruct St as [St _]. exfalso. apply (F' s); auto. }
      apply F in Cs. destruct (B5 He Hb s x Gs Cs Hx' St) as (x' & X1 & X2). exists x'. split; [lia|auto].
Qed.
End Loop.
End Search.
