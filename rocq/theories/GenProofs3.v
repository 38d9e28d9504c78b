(** The actions recorded for a livelock: enough to form the same livelock, at
    least two of them, and the two highest ids. *)
From Coq Require Import List Arith Lia Bool Relations Sorted.
From Verif Require Import FinLib UniModel UniSpec UniProofs LivelockModel LivelockSpec LivelockProofs
  LivelockProofs2 LivelockProofs3 TileModel TileSpec TileProofs TileProofs2 GenModel GenSpec GenProofs GenProofs2.
Import ListNotations.

(** * Length of the blocks found *)
Lemma find_block_len : forall t M n bot col row c, length bot = S n -> length col = S n ->
  find_block t M n bot col = Some (row, c) -> length row <= S n /\ length c <= S n.
Proof.
  intros t M n bot col row c Lb Lc H. unfold find_block in H.
  apply find_some_some in H. destruct H as (j & Hj & H).
  destruct (nth j bot 0 =? nth n bot 0); [|discriminate].
  apply find_some_some in H. destruct H as (i & Hi & H).
  destruct (nth i col 0 =? nth n col 0); [|discriminate].
  destruct (fill_livelock_ck t M (skipn j bot) (skipn i col)) as [r|] eqn:E; [|discriminate].
  injection H as <- <-. unfold fill_livelock_ck in E.
  destruct (fill_rows _ _ _ _) as [r'|]; [|discriminate].
  destruct (nat_list_eqb r' (skipn j bot)) eqn:E2; [|discriminate]. injection E as <-.
  apply nat_list_eqb_eq in E2. subst r'. rewrite !skipn_length. lia.
Qed.

Lemma build_col_len : forall t M old d col, build_col t M d old = Some col -> length col = S (length old).
Proof.
  induction old as [|a old IH]; intros d col H; simpl in H.
  - injection H as <-. reflexivity.
  - destruct (ppg t M a d =? M); [discriminate|]. destruct (build_col t M _ old) eqn:E; [|discriminate].
    injection H as <-. simpl. f_equal. eauto.
Qed.

Lemma diag_loop_len : forall t M deeper ob oc B, length ob = length oc -> S (length ob) <= B ->
  (forall bot col row c, length bot = S (length ob) -> length col = S (length oc) ->
     deeper bot col = RYes row c -> length row <= B /\ length c <= B) ->
  forall ds may row c, diag_loop t M deeper ob oc ds may = RYes row c -> length row <= B /\ length c <= B.
Proof.
  intros t M deeper ob oc B L HB HD. induction ds as [|d ds IH]; intros may row c H; simpl in H.
  { destruct may; discriminate. }
  destruct (build_col t M d oc) as [col|] eqn:Ec; [|eauto].
  apply build_col_len in Ec.
  destruct (find_block t M (length ob) _ col) as [[r c']|] eqn:Ef.
  - injection H as <- <-. apply find_block_len in Ef; [lia| |lia]. rewrite app_length. simpl. lia.
  - destruct (deeper _ col) as [| |r c'] eqn:Ed; eauto. injection H as <- <-.
    eapply HD; [| |eauto]; [rewrite app_length; simpl; lia|lia].
Qed.

Lemma semick_rec_len : forall t M k ob oc row c, length ob = length oc ->
  semick_rec t M k ob oc = RYes row c ->
  length row <= S (length ob + k) /\ length c <= S (length ob + k).
Proof.
  induction k; intros ob oc row c L H; cbn [semick_rec] in H;
    eapply (diag_loop_len _ _ _ ob oc _ L) in H; try (exact H); try lia.
  - intros bot col r c' _ _ E. discriminate.
  - intros bot col r c' L1 L2 E. apply IHk in E; [|lia]. lia.
Qed.

Lemma semick_loop_len : forall M k cs t may row c, semick_loop M k cs t may = RYes row c ->
  length row <= S (S k) /\ length c <= S (S k).
Proof.
  induction cs as [|x cs IH]; intros t may row c H; simpl in H; [destruct may; discriminate|].
  destruct (semick_rec t M k [x] [x]) as [| |r c'] eqn:E; eauto.
  injection H as <- <-. apply semick_rec_len in E; auto.
Qed.

Lemma semick_len : forall limit t M row c, livelock_semick limit t M = RYes row c ->
  length row <= S (S (limit - 1)) /\ length c <= S (S (limit - 1)).
Proof. intros limit t M row c H. eapply semick_loop_len. exact H. Qed.

Lemma semick_pred : forall limit t M, livelock_semick (S (limit - 1)) t M = livelock_semick limit t M.
Proof. intros. unfold livelock_semick. simpl. rewrite Nat.sub_0_r. reflexivity. Qed.

(** * The actions of a block *)
Section Ppgs.
Variables (t : list nat) (M : nat).
Hypothesis Hok : table_ok M t.
Let P := table_protocol M t.
Variables (m n : nat) (G : nat -> nat -> nat).
Hypothesis GP : forall i j, i < m -> j < n -> P (G (S i) j) (G i (S j)) (G (S i) (S j)).

Lemma fill_row_G : forall len i j, i < m -> j + len <= n ->
  fill_row t M (G (S i) j) (map (G i) (seq (S j) len)) = Some (map (G (S i)) (seq (S j) len)).
Proof.
  induction len; intros i j Hi Hj; [reflexivity|]. cbn [seq map fill_row].
  destruct (protocol_ppg M t _ _ _ Hok (GP i j Hi ltac:(lia))) as (_ & _ & Hc & ->).
  destruct (Nat.eqb_spec (G (S i) (S j)) M); [lia|]. rewrite IHlen by lia. reflexivity.
Qed.

Lemma row_ids_G : forall len i j x,
  In x (row_ids M (G (S i) j) (map (G i) (seq (S j) len)) (map (G (S i)) (seq (S j) len))) <->
  exists q, j <= q < j + len /\ x = id_of3 (G (S i) q) (G i (S q)) (G (S i) (S q)) M.
Proof.
  induction len; intros i j x; cbn [seq map row_ids In].
  - split; [easy|]. intros (q & Hq & _). lia.
  - rewrite IHlen. split.
    + intros [<-|(q & Hq & ->)]; [exists j|exists q]; (split; [lia|reflexivity]).
    + intros (q & Hq & ->). destruct (Nat.eq_dec q j) as [->|]; [auto|]. right. exists q. split; [lia|reflexivity].
Qed.

Lemma ppgs_rows_G : forall len i, i + len <= m -> exists l,
  ppgs_rows t M (map (G i) (seq 0 (S n))) (map (fun k => G (S k) 0) (seq i len)) = Some l /\
  forall x, In x l <-> exists k j, i <= k < i + len /\ j < n /\
    x = id_of3 (G (S k) j) (G k (S j)) (G (S k) (S j)) M.
Proof.
  induction len; intros i Hi.
  { exists []. split; [reflexivity|]. intros x. split; [easy|]. intros (k & j & Hk & _). lia. }
  cbn [seq map ppgs_rows tl]. rewrite fill_row_G by lia.
  destruct (IHlen (S i) ltac:(lia)) as (l & E & Hl). cbn [seq map] in E. rewrite E.
  eexists. split; [reflexivity|]. intros x. rewrite in_app_iff, Hl, row_ids_G. split.
  - intros [(q & Hq & ->)|(k & j & Hk & Hj & ->)]; [exists i, q|exists k, j];
      (split; [lia|]; split; [lia|reflexivity]).
  - intros (k & j & Hk & Hj & ->). destruct (Nat.eq_dec k i) as [->|].
    + left. exists j. split; [lia|reflexivity].
    + right. exists k, j. split; [lia|]. split; [lia|reflexivity].
Qed.
End Ppgs.

Lemma list_map_nth : forall (l : list nat) (f : nat -> nat) n, length l = n ->
  (forall j, j < n -> f j = nth j l 0) -> l = map f (seq 0 n).
Proof.
  intros l f n L H. apply nth_ext with 0 0; [rewrite map_length, seq_length; auto|].
  intros i Hi. rewrite nth_map_seq by lia. symmetry. apply H. lia.
Qed.

Lemma livelock_ppgs_spec : forall t M row col, table_ok M t ->
  periodic_block (table_protocol M t) row col ->
  exists l, livelock_ppgs t M row col = Some l /\
    (forall i, In i l -> exists a b c, table_protocol M t a b c /\ i = id_of3 a b c M) /\
    (forall Q : protocol, (forall a b c, a < M -> b < M -> c < M -> In (id_of3 a b c M) l -> Q a b c) ->
       periodic_block Q row col).
Proof.
  intros t M row col Hok (m & n & G & Hm & Hn & Lr & Lc & Br & Bc & GP).
  assert (Er : row = map (G 0) (seq 0 (S n))).
  { apply list_map_nth; auto. intros j Hj. apply Br. lia. }
  assert (Ec : tl col = map (fun k => G (S k) 0) (seq 0 m)).
  { destruct col as [|x col]; [discriminate|]. simpl in Lc. apply list_map_nth; [simpl; lia|].
    intros j Hj. destruct (Bc (S j) ltac:(lia)) as [-> _]. reflexivity. }
  destruct (ppgs_rows_G t M Hok m n G GP m 0 ltac:(lia)) as (l & El & Hl).
  exists l. split; [|split].
  - unfold livelock_ppgs. rewrite Lr, Lc. replace (S n - 1) with n by lia. replace (S m - 1) with m by lia.
    destruct (Br 0 ltac:(lia)) as [R1 R2], (Br n ltac:(lia)) as [R3 R4].
    destruct (Bc 0 ltac:(lia)) as [C1 C2], (Bc m ltac:(lia)) as [C3 C4].
    replace (nth 0 row 0 =? nth n row 0) with true by (symmetry; apply Nat.eqb_eq; congruence).
    replace (nth 0 row 0 =? nth m col 0) with true by (symmetry; apply Nat.eqb_eq; congruence).
    replace (nth 0 row 0 =? nth 0 col 0) with true by (symmetry; apply Nat.eqb_eq; congruence).
    cbn [andb]. rewrite Er, Ec. exact El.
  - intros i Hi. apply Hl in Hi. destruct Hi as (k & j & Hk & Hj & ->).
    exists (G (S k) j), (G k (S j)), (G (S k) (S j)). split; [apply GP; lia|reflexivity].
  - intros Q HQ. exists m, n, G. repeat (split; [assumption|]). intros i j Hi Hj.
    pose proof (GP i j Hi Hj) as (Ha & Hb & Hc & _). apply HQ; auto. apply Hl.
    exists i, j. split; [lia|]. auto.
Qed.

(** A protocol with the recorded actions of a block within the limit has a
    block within the limit as well. *)
Lemma block_carries : forall t t' M limit row col l, table_ok M t -> table_ok M t' ->
  livelock_semick limit t M = RYes row col -> livelock_ppgs t M row col = Some l ->
  (forall a b c, a < M -> b < M -> c < M -> In (id_of3 a b c M) l -> table_protocol M t' a b c) ->
  livelock_semick limit t' M <> RMay.
Proof.
  intros t t' M limit row col l Hok Hok' H1 H2 H3.
  destruct (semick_len _ _ _ _ _ H1) as [L1 L2].
  destruct (livelock_semick_yes _ _ _ _ _ Hok H1) as [HB _].
  destruct (livelock_ppgs_spec t M row col Hok HB) as (l' & E & _ & HQ).
  rewrite H2 in E. injection E as <-.
  destruct (livelock_semick_complete (S (limit - 1)) t' M row col Hok' (HQ _ H3) L1 L2) as (r & c & E).
  rewrite semick_pred in E. congruence.
Qed.

(** * At least two actions *)
Lemma block_two : forall (Q : protocol) row col x y z,
  periodic_block Q row col -> (forall a b c, Q a b c -> a = x /\ b = y /\ c = z) -> x = y /\ y = z.
Proof.
  intros Q row col x y z (m & n & G & Hm & Hn & Lr & Lc & Br & Bc & GP) H.
  assert (W : forall i j, i < m -> j < n -> G (S i) j = x /\ G i (S j) = y /\ G (S i) (S j) = z).
  { intros i j Hi Hj. apply H. apply GP; auto. }
  destruct (Bc 1 ltac:(lia)) as [B1 B2], (Br 1 ltac:(lia)) as [B3 B4].
  destruct (W 0 0 ltac:(lia) ltac:(lia)) as (W1 & W2 & _).
  destruct (W 0 (n - 1) ltac:(lia) ltac:(lia)) as (_ & _ & W3). replace (S (n - 1)) with n in W3 by lia.
  destruct (W (m - 1) 0 ltac:(lia) ltac:(lia)) as (_ & _ & W4). replace (S (m - 1)) with m in W4 by lia.
  split; congruence.
Qed.

Definition two (l : list nat) : Prop := exists x y, In x l /\ In y l /\ x <> y.

Lemma two_dec : forall l, l <> [] -> two l \/ exists x, In x l /\ forall y, In y l -> y = x.
Proof.
  intros [|x l] H; [congruence|].
  destruct (Forall_dec (fun y => y = x) (fun y => Nat.eq_dec y x) l) as [F|F].
  - right. exists x. split; [left; auto|]. intros y [->|Hy]; auto. rewrite Forall_forall in F. auto.
  - left. assert (E : exists y, In y l /\ y <> x).
    { clear H. induction l as [|z l IH]; [exfalso; apply F; constructor|].
      destruct (Nat.eq_dec z x) as [->|Hz]; [|exists z; split; [left|]; auto].
      destruct IH as (y & Hy & Hn); [|exists y; split; [right|]; auto].
      intros HF. apply F. constructor; auto. }
    destruct E as (y & Hy & Hn). exists y, x. split; [right; auto|]. split; [left; auto|auto].
Qed.

Lemma semick_two : forall t M limit row col l nw, table_ok M t -> admissible nw (table_protocol M t) ->
  livelock_semick limit t M = RYes row col -> livelock_ppgs t M row col = Some l -> two l.
Proof.
  intros t M limit row col l nw Hok (_ & SD & _) H1 H2.
  destruct (livelock_semick_yes _ _ _ _ _ Hok H1) as [HB _].
  destruct (livelock_ppgs_spec t M row col Hok HB) as (l' & E & HA & HQ).
  rewrite H2 in E. injection E as <-.
  assert (Hr : exists a b c, In (id_of3 a b c M) l).
  { specialize (HQ (fun a b c => In (id_of3 a b c M) l) ltac:(cbv beta; auto)).
    destruct HQ as (m & n & G & Hm & Hn & _ & _ & _ & _ & GP).
    exists (G 1 0), (G 0 1), (G 1 1). apply GP; lia. }
  destruct Hr as (a & b & c & Hr).
  destruct (two_dec l) as [T|(x & Hx & Hall)]; [destruct l; [easy|discriminate]|auto|].
  exfalso. destruct (HA x Hx) as (x1 & x2 & x3 & HP & Ex).
  pose proof (table_protocol_range _ _ _ _ _ HP) as (R1 & R2 & R3).
  specialize (HQ (fun a b c => a < M /\ b < M /\ c < M /\ In (id_of3 a b c M) l) ltac:(cbv beta; auto)).
  apply (block_two _ _ _ x1 x2 x3) in HQ.
  - destruct HQ as [-> ->]. apply (SD x3 x3 x3 x3); auto.
  - intros a' b' c' (Ha & Hb & Hc & HI). apply Hall in HI. rewrite Ex in HI.
    apply id3_inj in HI; auto.
Qed.

Lemma guided_two : forall t M acts cs limit l nw, table_ok M t -> admissible nw (table_protocol M t) ->
  closed_chain (table_protocol M t) acts cs -> guided_livelock_ck t M acts limit = Some l -> two l.
Proof.
  intros t M acts cs limit l nw Hok (_ & _ & _ & N4 & _) (Lc & Ne & CC) H.
  unfold guided_livelock_ck in H.
  destruct (guided_first _ _) as [ids|] eqn:Ef; [|discriminate]. injection H as <-.
  apply guided_first_some in Ef. destruct Ef as (w & Hw & Hrec). apply in_seq in Hw.
  assert (L1 : 1 <= length acts) by (destruct acts; [congruence|simpl; lia]).
  destruct (two_dec (acts_ids t M acts ++ ids)) as [T|(x & Hx & Hall)].
  { destruct acts; [congruence|discriminate]. }
  { auto. }
  exfalso.
  assert (HP : forall ab, In ab acts -> exists c, table_protocol M t (fst ab) (snd ab) c /\
     ppg t M (fst ab) (snd ab) = c).
  { intros ab Hab. apply (In_nth _ _ (0, 0)) in Hab. destruct Hab as (j & Hj & <-).
    destruct (CC j Hj) as [H _]. eexists. split; [exact H|]. apply (protocol_ppg M) in H; auto. tauto. }
  destruct (nth 0 acts (0, 0)) as [a b] eqn:E0.
  destruct (CC 0 ltac:(lia)) as [P0 _]. rewrite E0 in P0. cbn [fst snd] in P0.
  set (c := nth 0 cs 0) in *. destruct (protocol_ppg M t _ _ _ Hok P0) as (Ha & Hb & Hc & Ec).
  assert (Ex : x = id_of3 a b c M).
  { symmetry. apply Hall. apply in_or_app. left. unfold acts_ids. apply in_map_iff.
    exists (a, b). cbn [fst snd]. rewrite Ec. split; auto. rewrite <- E0. apply nth_In. lia. }
  assert (EA : forall ab, In ab acts -> ab = (a, b)).
  { intros ab Hab. destruct (HP ab Hab) as (c' & H1 & H2).
    pose proof (table_protocol_range _ _ _ _ _ H1) as (R1 & R2 & R3).
    assert (E : id_of3 (fst ab) (snd ab) c' M = id_of3 a b c M).
    { rewrite <- Ex. apply Hall. apply in_or_app. left. unfold acts_ids. apply in_map_iff.
      exists ab. rewrite H2. auto. }
    apply id3_inj in E; auto. destruct E as (E1 & E2 & _). rewrite (surjective_pairing ab). congruence. }
  assert (Eca : c = a).
  { destruct (CC 0 ltac:(lia)) as [_ H]. fold c in H. rewrite <- H.
    rewrite (EA (nth _ acts (0, 0))); [reflexivity|]. apply nth_In.
    destruct (Nat.eqb_spec 1 (length acts)); lia. }
  rewrite Eca in *. clear Eca.
  destruct acts as [|x0 acts]; [congruence|]. cbn in E0. subst x0.
  remember (limit - 1) as lim eqn:Elim. clear Elim. revert Hrec.
  cbn [acts_row map fst snd]. rewrite Ec.
  destruct lim as [|lim]; cbn [guided_rec guided_row].
  all: destruct (Nat.leb_spec M (ppg t M w a)) as [|Hlt]; [discriminate|].
  all: destruct (guided_row t M (ppg t M w a) _) as [mid|] eqn:Em; [|discriminate].
  all: destruct (Nat.eqb_spec (last (ppg t M w a :: mid) 0) w) as [El|]; cbn [negb]; [|discriminate].
  all: destruct (nat_list_eqb (ppg t M w a :: mid) (b :: map snd acts)) eqn:En.
  1, 3: intros _; apply nat_list_eqb_eq in En; injection En as En1 En2;
    assert (Ew : w = b).
  1, 3: rewrite <- El, last_nth; rewrite En1, En2;
    change (b :: map snd acts) with (map snd ((a, b) :: acts)); rewrite nth_snd;
    rewrite (EA (nth _ ((a, b) :: acts) (0, 0))); [reflexivity|];
    apply nth_In; rewrite map_length; cbn [length]; lia.
  1, 2: subst w; apply (N4 a b); split; [exact P0|];
    rewrite <- En1 at 2; apply ppg_protocol; auto; lia.
  - discriminate.
  - intros H. apply guided_loop_yes in H. destruct H as (w' & ids' & _ & _ & ->).
    cbn [row_ids] in Hall.
    assert (E : id_of3 w a (ppg t M w a) M = id_of3 a b a M).
    { rewrite <- Ex. apply Hall. apply in_or_app. right. apply in_or_app. right. left. reflexivity. }
    apply id3_inj in E; try lia. destruct E as (_ & <- & _).
    apply (N4 a a). auto.
Qed.

(** * The two highest ids *)
Lemma fold_last_two : forall (l : list nat) x y p,
  fold_left (fun p i => (snd p, i)) (l ++ [x; y]) p = (x, y) :> nat * nat.
Proof. intros. rewrite fold_left_app. reflexivity. Qed.

Lemma ones_sorted : forall s, StronglySorted lt (ones s).
Proof.
  intros s. unfold ones. generalize 0. induction (length s) as [|n IH]; intros k; simpl; [constructor|].
  destruct (nth k s false); [|apply IH]. constructor; [apply IH|].
  apply Forall_forall. intros x Hx. apply filter_In in Hx. destruct Hx as [Hx _]. apply in_seq in Hx. lia.
Qed.

Lemma last_two_spec : forall n l, (forall i, In i l -> i < n) -> two l ->
  exists m0 m1, last_two (id_mask n l) = (m0, m1) /\ m0 < m1 /\ In m0 l /\ In m1 l /\
    forall x, In x l -> x = m1 \/ x <= m0.
Proof.
  intros n l Hl (x & y & Hx & Hy & Hxy). unfold last_two.
  assert (HI : forall i, In i (ones (id_mask n l)) <-> In i l).
  { intros i. rewrite mem_ones, mem_mask. split; [tauto|]. intros H. split; auto. }
  pose proof (ones_sorted (id_mask n l)) as HS. revert HI HS. generalize (ones (id_mask n l)).
  intros o HI HS. destruct (rev o) as [|m1 r] eqn:E1.
  { exfalso. apply HI in Hx. apply in_rev in Hx. rewrite E1 in Hx. easy. }
  destruct r as [|m0 r].
  { exfalso. apply HI in Hx, Hy. apply in_rev in Hx, Hy. rewrite E1 in Hx, Hy.
    destruct Hx as [<-|[]], Hy as [<-|[]]. congruence. }
  assert (E : o = rev r ++ [m0; m1]).
  { rewrite <- (rev_involutive o), E1. simpl. rewrite <- app_assoc. reflexivity. }
  exists m0, m1. rewrite E. rewrite fold_last_two. split; [reflexivity|].
  assert (HS' : m0 < m1 /\ forall x, In x (rev r) -> x < m0).
  { rewrite E in HS. clear - HS. induction (rev r) as [|z l IH]; simpl in HS.
    - inversion HS as [|? ? H1 H2]; subst. inversion H2; subst. split; auto. easy.
    - inversion HS as [|? ? H1 H2]; subst. destruct (IH H1) as [A B]. split; auto.
      intros x [<-|Hx]; auto. rewrite Forall_forall in H2. apply H2. apply in_or_app. right. left. auto. }
  destruct HS' as [S1 S2]. split; [auto|]. split; [apply HI; rewrite E; apply in_or_app; right; left; auto|].
  split; [apply HI; rewrite E; apply in_or_app; right; right; left; auto|].
  intros z Hz. apply HI in Hz. rewrite E in Hz. apply in_app_iff in Hz.
  destruct Hz as [Hz|[<-|[<-|[]]]]; auto. right. apply S2 in Hz. lia.
Qed.
