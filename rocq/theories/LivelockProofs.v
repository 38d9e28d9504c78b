(** Lemmas about the tile-based livelock search. *)
From Coq Require Import List Arith Lia Bool.
From Verif Require Import FinLib UniModel UniSpec UniProofs LivelockModel LivelockSpec GridLivelock LiveGrid.
Import ListNotations.

(** ** Reading the table *)
Lemma ppg_le : forall M t a b, table_ok M t -> ppg t M a b <= M.
Proof.
  intros M t a b [L F]. unfold ppg.
  destruct (nth_in_or_default (id_of2 a b M) t M) as [H|H]; [|lia].
  rewrite Forall_forall in F. auto.
Qed.

Lemma ppg_protocol : forall M t a b, table_ok M t -> a < M -> b < M -> ppg t M a b <> M ->
  table_protocol M t a b (ppg t M a b).
Proof.
  intros M t a b Hok Ha Hb Hne. destruct Hok as [L F] eqn:E. clear E.
  apply table_protocol_nth; auto. split; auto.
  pose proof (ppg_le M t a b (conj L F)). lia.
Qed.

Lemma protocol_ppg : forall M t a b c, table_ok M t -> table_protocol M t a b c ->
  a < M /\ b < M /\ c < M /\ ppg t M a b = c.
Proof.
  intros M t a b c [L F] H. assert (a < M /\ b < M) as [Ha Hb] by (destruct H; tauto).
  apply table_protocol_nth in H; auto.
Qed.

(** ** fill *)
Lemma fill_row_spec : forall t M old w r, fill_row t M w old = Some r ->
  length r = length old /\
  forall j, j < length old -> nth j r 0 = ppg t M (nth j (w :: r) 0) (nth j old 0) /\ nth j r 0 <> M.
Proof.
  intros t M. induction old as [|b old IH]; intros w r H; cbn [fill_row] in H.
  - injection H as <-. split; auto. intros; simpl in *; lia.
  - destruct (Nat.eqb_spec (ppg t M w b) M) as [E|E]; [discriminate|].
    destruct (fill_row t M (ppg t M w b) old) as [r'|] eqn:F; [|discriminate].
    injection H as <-. apply IH in F. destruct F as [L F]. split; [simpl; auto|].
    intros j Hj. destruct j; [simpl; auto|]. simpl in Hj. apply F. lia.
Qed.

(** Rows produced by [fill_rows], as a function of the row number. *)
Lemma fill_rows_spec : forall t M cols row r n, length row = S n -> 1 <= n ->
  fill_rows t M row cols = Some r ->
  exists G : nat -> list nat,
    G 0 = row /\ G (length cols) = r /\
    (forall i, i <= length cols -> length (G i) = S n) /\
    (forall i, i < length cols -> nth 0 (G (S i)) 0 = nth i cols 0 /\ nth n (G (S i)) 0 = nth i cols 0) /\
    (forall i j, i < length cols -> j < n ->
       nth (S j) (G (S i)) 0 = ppg t M (nth j (G (S i)) 0) (nth (S j) (G i) 0) /\
       nth (S j) (G (S i)) 0 <> M).
Proof.
  intros t M. induction cols as [|w cols IH]; intros row r n L Hn H; cbn [fill_rows] in H.
  - injection H as <-. exists (fun _ => row). simpl. repeat split; auto; intros; lia.
  - destruct (fill_row t M w (tl row)) as [r1|] eqn:F; [|discriminate].
    destruct (Nat.eqb_spec w (last (w :: r1) 0)) as [E|E]; [|discriminate].
    apply fill_row_spec in F. destruct F as [L1 F].
    assert (Ltl : length (tl row) = n) by (destruct row; simpl in *; lia).
    assert (L2 : length (w :: r1) = S n) by (simpl; lia).
    destruct (IH (w :: r1) r n L2 Hn H) as (G & G0 & Gm & GL & Gc & GP).
    exists (fun i => match i with 0 => row | S i' => G i' end).
    split; [auto|]. split; [auto|]. split; [|split].
    + intros i Hi. destruct i; auto. apply GL. simpl in Hi. lia.
    + intros i Hi. destruct i.
      * rewrite G0. split; [reflexivity|]. rewrite last_nth, L2 in E.
        replace (S n - 1) with n in E by lia. symmetry. exact E.
      * simpl in Hi. cbn [nth]. apply Gc. lia.
    + intros i j Hi Hj. destruct i.
      * rewrite G0. cbn [nth]. specialize (F j ltac:(lia)).
        destruct row as [|x row]; [simpl in L; lia|]. exact F.
      * simpl in Hi. apply GP; lia.
Qed.

Lemma nat_list_eqb_eq : forall a b, nat_list_eqb a b = true <-> a = b.
Proof.
  induction a as [|x a IH]; intros [|y b]; simpl; split; intros H; try discriminate; auto.
  - apply andb_true_iff in H. destruct H as [H1 H2]. apply Nat.eqb_eq in H1. apply IH in H2. congruence.
  - injection H as -> ->. rewrite Nat.eqb_refl. apply IH. auto.
Qed.

Lemma fill_sound : forall t M top col row,
  table_ok M t -> 2 <= length top -> 2 <= length col ->
  Forall (fun v => v < M) top -> Forall (fun v => v < M) col ->
  nth 0 top 0 = nth 0 col 0 -> nth 0 top 0 = nth (length top - 1) top 0 ->
  fill_livelock_ck t M top col = Some row ->
  row = top /\ periodic_block (table_protocol M t) row col.
Proof.
  intros t M top col row Hok Lt Lc Ft Fc E1 E2 H. unfold fill_livelock_ck in H.
  destruct (fill_rows t M top (tl col)) as [r|] eqn:F; [|discriminate].
  destruct (nat_list_eqb r top) eqn:E; [|discriminate]. injection H as ->.
  apply nat_list_eqb_eq in E. subst row. split; auto.
  destruct col as [|c0 col]; [simpl in Lc; lia|]. cbn [tl] in F.
  set (n := length top - 1) in *. 
  apply (fill_rows_spec t M col top top n) in F; [|lia|lia].
  destruct F as (G & G0 & Gm & GL & Gc & GP).
  simpl in Lc.
  assert (HR : forall i j, i <= length col -> j <= n -> nth j (G i) 0 < M).
  { induction i; intros j Hi Hj.
    - rewrite G0. rewrite Forall_forall in Ft. apply Ft. apply nth_In. lia.
    - destruct j.
      + destruct (Gc i ltac:(lia)) as [-> _]. inversion Fc; subst. rewrite Forall_forall in H2.
        apply H2. apply nth_In. lia.
      + destruct (GP i j ltac:(lia) ltac:(lia)) as [P1 P2].
        pose proof (ppg_le M t (nth j (G (S i)) 0) (nth (S j) (G i) 0) Hok). lia. }
  exists (length col), n, (fun i j => nth j (G i) 0).
  split; [lia|]. split; [lia|]. split; [lia|]. split; [reflexivity|]. split; [|split].
  - intros j Hj. rewrite G0, Gm. auto.
  - intros i Hi. destruct i.
    + rewrite G0. split; auto. rewrite <- E2. exact E1.
    + cbn [nth]. apply Gc. lia.
  - intros i j Hi Hj. destruct (GP i j Hi Hj) as [P1 P2].
    rewrite P1 in *. apply ppg_protocol; auto; apply HR; lia.
Qed.

Lemma block_livelock : forall M (P : protocol) row col,
  (forall a b c, P a b c -> a < M /\ b < M /\ c < M) ->
  periodic_block P row col -> livelocks_on_large_rings P M.
Proof.
  intros M P row col HP (m & n & G & Hm & Hn & _ & _ & Gr & Gc & GP).
  intros K. apply (block_grid P M m n G); auto.
  - intros j Hj. destruct (Gr j Hj). congruence.
  - intros i Hi. destruct (Gc i Hi). congruence.
  - intros i j Hi Hj.
    assert (HM : forall i j, i < m -> j < n -> G (S i) (S j) < M).
    { intros. apply (HP _ _ _ (GP i0 j0 H H0)). }
    assert (Hrow : forall i, i <= m -> forall j, j <= n -> 0 < j -> G i j < M).
    { intros i' Hi' j' Hj' Hp. destruct j'; [lia|]. destruct i'.
      - destruct (Gr (S j') Hj') as [-> <-]. destruct m; [lia|]. apply HM; lia.
      - apply HM; lia. }
    destruct j; [|apply Hrow; auto; lia].
    destruct (Gc i Hi) as [-> <-]. apply Hrow; auto.
Qed.

Lemma table_protocol_range : forall M t a b c, table_protocol M t a b c -> a < M /\ b < M /\ c < M.
Proof. unfold table_protocol. tauto. Qed.

(** ** Search: Yes is sound *)
Lemma build_col_spec : forall t M old d col, table_ok M t -> d < M ->
  build_col t M d old = Some col ->
  length col = S (length old) /\ Forall (fun v => v < M) col /\ nth 0 col 0 = d /\
  forall i, i < length old -> nth (S i) col 0 = ppg t M (nth i old 0) (nth i col 0) /\ nth (S i) col 0 <> M.
Proof.
  intros t M. induction old as [|a old IH]; intros d col Hok Hd H; cbn [build_col] in H.
  - injection H as <-. simpl. repeat split; auto; intros; lia.
  - destruct (Nat.eqb_spec (ppg t M a d) M) as [E|E]; [discriminate|].
    destruct (build_col t M (ppg t M a d) old) as [r|] eqn:F; [|discriminate].
    injection H as <-. pose proof (ppg_le M t a d Hok).
    apply IH in F; auto; [|lia]. destruct F as (L & R & H0 & F).
    split; [simpl; auto|]. split; [constructor; auto|]. split; [auto|].
    intros i Hi. destruct i.
    + cbn [nth]. rewrite H0. auto.
    + simpl in Hi. apply F. lia.
Qed.

Lemma find_some_some : forall A B (f : A -> option B) l y, find_some f l = Some y ->
  exists x, In x l /\ f x = Some y.
Proof.
  induction l as [|x l IH]; intros y H; simpl in H; [discriminate|].
  destruct (f x) eqn:E.
  - exists x. split; [left; auto|congruence].
  - destruct (IH y H) as (x' & H1 & H2). exists x'. split; [right|]; auto.
Qed.

Lemma nth_skipn' : forall A (l : list A) i j d, nth j (skipn i l) d = nth (i + j) l d.
Proof.
  induction l; intros i j d; destruct i; simpl; auto.
  destruct j; auto.
Qed.

Lemma find_block_sound : forall t M n bot col row c,
  table_ok M t -> length bot = S n -> length col = S n ->
  Forall (fun v => v < M) bot -> Forall (fun v => v < M) col ->
  nth n bot 0 = nth n col 0 ->
  find_block t M n bot col = Some (row, c) ->
  periodic_block (table_protocol M t) row c.
Proof.
  intros t M n bot col row c Hok Lb Lc Fb Fc E H. unfold find_block in H.
  apply find_some_some in H. destruct H as (j & Hj & H). apply in_rev, in_seq in Hj.
  destruct (Nat.eqb_spec (nth j bot 0) (nth n bot 0)) as [Ej|Ej]; [|discriminate].
  apply find_some_some in H. destruct H as (i & Hi & H). apply in_rev, in_seq in Hi.
  destruct (Nat.eqb_spec (nth i col 0) (nth n col 0)) as [Ei|Ei]; [|discriminate].
  destruct (fill_livelock_ck t M (skipn j bot) (skipn i col)) as [r|] eqn:F; [|discriminate].
  injection H as <- <-.
  assert (LB : length (skipn j bot) = S n - j) by (rewrite skipn_length; lia).
  assert (LC : length (skipn i col) = S n - i) by (rewrite skipn_length; lia).
  assert (Fsk : forall l k, Forall (fun v => v < M) l -> Forall (fun v => v < M) (skipn k l)).
  { intros l k Hl. rewrite Forall_forall in *. intros x Hx. apply Hl.
    rewrite <- (firstn_skipn k l). apply in_or_app. auto. }
  apply (fill_sound t M) in F; auto; try lia.
  - tauto.
  - rewrite !nth_skipn', !Nat.add_0_r. congruence.
  - rewrite !nth_skipn', LB, Nat.add_0_r. replace (j + (S n - j - 1)) with n by lia. auto.
Qed.

Definition vals_ok (M : nat) (l : list nat) : Prop := Forall (fun v => v < M) l.

Lemma diag_loop_sound : forall t M deeper old_bot old_col,
  table_ok M t -> length old_bot = length old_col -> vals_ok M old_bot ->
  (forall bot col row c, length bot = length col -> vals_ok M bot -> vals_ok M col ->
     deeper bot col = RYes row c -> periodic_block (table_protocol M t) row c) ->
  forall ds may row c, vals_ok M ds ->
  diag_loop t M deeper old_bot old_col ds may = RYes row c ->
  periodic_block (table_protocol M t) row c.
Proof.
  intros t M deeper old_bot old_col Hok L Vb Hd.
  induction ds as [|d ds IH]; intros may row c Vds H; cbn [diag_loop] in H.
  - destruct may; discriminate.
  - inversion Vds; subst.
    destruct (build_col t M d old_col) as [col|] eqn:B; [|eapply IH; eauto].
    apply build_col_spec in B; auto. destruct B as (Lcol & Vcol & _).
    set (n := length old_bot) in *. set (bot := old_bot ++ [nth n col 0]) in *.
    cbv zeta in H.
    assert (Lb : length bot = S n) by (unfold bot; rewrite app_length; simpl; lia).
    assert (Hn : nth n col 0 < M).
    { rewrite Forall_forall in Vcol. apply Vcol. apply nth_In. lia. }
    assert (Vb' : vals_ok M bot).
    { unfold bot, vals_ok. rewrite Forall_app. split; auto. }
    assert (En : nth n bot 0 = nth n col 0).
    { unfold bot. rewrite app_nth2 by lia. replace (n - length old_bot) with 0 by lia. reflexivity. }
    destruct (find_block t M n bot col) as [[row' c']|] eqn:F.
    + injection H as <- <-. apply (find_block_sound t M n bot col); auto. lia.
    + destruct (deeper bot col) as [| |row' c'] eqn:Dp.
      * eapply IH; eauto.
      * eapply IH; eauto.
      * injection H as <- <-. apply (Hd bot col); auto. lia.
Qed.

Lemma semick_rec_sound : forall t M k, table_ok M t -> forall bot col row c,
  length bot = length col -> vals_ok M bot -> vals_ok M col ->
  semick_rec t M k bot col = RYes row c -> periodic_block (table_protocol M t) row c.
Proof.
  intros t M. induction k; intros Hok bot col row c L Vb Vc H; cbn [semick_rec] in H.
  - eapply diag_loop_sound in H; eauto; [discriminate|].
    apply Forall_forall. intros x Hx. apply in_seq in Hx. lia.
  - eapply diag_loop_sound in H; eauto.
    apply Forall_forall. intros x Hx. apply in_seq in Hx. lia.
Qed.

(** ** Removing a value *)
Definition rm_step (M c : nat) (t : list nat) (ab : nat * nat) : list nat :=
  let '(a, b) := ab in
  let idx := id_of2 a b M in
  if (a =? c) || (b =? c) || (nth idx t M =? c) then upd t idx M else t.

Definition rm_pairs (M c : nat) : list (nat * nat) :=
  flat_map (fun a => map (fun b => (a, b)) (seq c (M - c))) (seq c (M - c)).

Lemma remove_value_alt : forall M c t, remove_value M c t = fold_left (rm_step M c) (rm_pairs M c) t.
Proof.
  intros. unfold remove_value, rm_pairs. rewrite <- fold_left_flat. apply fold_left_ext.
  intros t' a. generalize (seq c (M - c)). intros l. revert t'.
  induction l; intros t'; simpl; auto.
Qed.

Lemma rm_fold_table_ok : forall M c l t, table_ok M t -> table_ok M (fold_left (rm_step M c) l t).
Proof.
  induction l as [|[a b] l IH]; intros t H; simpl; auto. apply IH.
  destruct (_ || _); auto. destruct H as [L F]. split; [rewrite upd_length; auto|].
  apply Forall_upd; auto.
Qed.

Lemma rm_fold_sub : forall M c l t i,
  nth i (fold_left (rm_step M c) l t) M = M \/ nth i (fold_left (rm_step M c) l t) M = nth i t M.
Proof.
  induction l as [|[a b] l IH]; intros t i; cbn [fold_left]; auto.
  destruct (IH (rm_step M c t (a, b)) i) as [H|H]; auto. rewrite H. unfold rm_step.
  destruct (_ || _); auto. rewrite nth_upd. destruct (_ && _); auto.
Qed.

Lemma rm_fold_keep : forall M c l t a b, (forall x y, In (x, y) l -> y < M) -> b < M ->
  a <> c -> b <> c -> nth (id_of2 a b M) t M <> c ->
  nth (id_of2 a b M) (fold_left (rm_step M c) l t) M = nth (id_of2 a b M) t M.
Proof.
  induction l as [|[x y] l IH]; intros t a b Hl Hb H1 H2 H3; cbn [fold_left]; auto.
  assert (E : nth (id_of2 a b M) (rm_step M c t (x, y)) M = nth (id_of2 a b M) t M).
  { unfold rm_step. destruct (_ || _) eqn:C; auto.
    rewrite nth_upd. destruct (Nat.eqb_spec (id_of2 a b M) (id_of2 x y M)) as [E|E]; auto.
    exfalso. apply id2_inj in E; [|auto|apply (Hl x y); left; auto]. destruct E as [-> ->].
    apply Nat.eqb_neq in H1, H2, H3. rewrite H1, H2, H3 in C. discriminate. }
  rewrite IH; auto.
  - intros; apply (Hl x0 y0); right; auto.
  - rewrite E. auto.
Qed.

Lemma remove_value_ok : forall M c t, table_ok M t -> table_ok M (remove_value M c t).
Proof. intros. rewrite remove_value_alt. apply rm_fold_table_ok; auto. Qed.

Lemma remove_value_sub : forall M c t a b v, table_ok M t ->
  table_protocol M (remove_value M c t) a b v -> table_protocol M t a b v.
Proof.
  intros M c t a b v Hok H. pose proof (remove_value_ok M c t Hok) as Hok'.
  apply protocol_ppg in H; auto. destruct H as (Ha & Hb & Hv & E). unfold ppg in E.
  apply table_protocol_nth; auto; [destruct Hok; auto|]. split; auto.
  rewrite remove_value_alt in E. destruct (rm_fold_sub M c (rm_pairs M c) t (id_of2 a b M)); lia.
Qed.

Lemma remove_value_keep : forall M c t a b v, table_ok M t ->
  c < a -> c < b -> c < v -> table_protocol M t a b v -> table_protocol M (remove_value M c t) a b v.
Proof.
  intros M c t a b v Hok H1 H2 H3 H. pose proof (remove_value_ok M c t Hok) as Hok'.
  apply protocol_ppg in H; auto. destruct H as (Ha & Hb & Hv & E). unfold ppg in E.
  apply table_protocol_nth; auto; [destruct Hok'; auto|]. split; auto.
  rewrite remove_value_alt. rewrite rm_fold_keep; auto; try lia.
  intros x y Hxy. apply in_flat_map in Hxy. destruct Hxy as (a' & _ & Hxy).
  apply in_map_iff in Hxy. destruct Hxy as (b' & Heq & Hb'). injection Heq as -> ->.
  apply in_seq in Hb'. lia.
Qed.

(** ** C06 *)
Lemma periodic_block_mono : forall (P Q : protocol) row col,
  (forall a b c, P a b c -> Q a b c) -> periodic_block P row col -> periodic_block Q row col.
Proof.
  intros P Q row col H (m & n & G & H1 & H2 & H3 & H4 & H5 & H6 & H7).
  exists m, n, G. split; [auto|]. split; [auto|]. split; [auto|]. split; [auto|].
  split; [auto|]. split; auto.
Qed.

Lemma semick_loop_sound : forall M k cs t may row col,
  table_ok M t -> Forall (fun c => c < M) cs ->
  semick_loop M k cs t may = RYes row col -> periodic_block (table_protocol M t) row col.
Proof.
  intros M k. induction cs as [|c cs IH]; intros t may row col Hok Vcs H; cbn [semick_loop] in H.
  - destruct may; discriminate.
  - inversion Vcs; subst.
    assert (Hrec : forall may', semick_loop M k cs (remove_value M c t) may' = RYes row col ->
              periodic_block (table_protocol M t) row col).
    { intros may' H'. apply IH in H'; auto using remove_value_ok.
      apply (periodic_block_mono (table_protocol M (remove_value M c t))); auto.
      intros. eapply remove_value_sub; eauto. }
    destruct (semick_rec t M k [c] [c]) as [| |row' col'] eqn:S; eauto.
    injection H as <- <-. apply (semick_rec_sound t M k Hok [c] [c]); auto; repeat constructor; auto.
Qed.

Lemma livelock_semick_yes : forall limit t M row col, table_ok M t ->
  livelock_semick limit t M = RYes row col ->
  periodic_block (table_protocol M t) row col /\
  livelocks_on_large_rings (table_protocol M t) M.
Proof.
  intros limit t M row col Hok H. unfold livelock_semick in H.
  apply semick_loop_sound in H; auto.
  - split; auto. eapply block_livelock; eauto. apply table_protocol_range.
  - apply Forall_forall. intros x Hx. apply in_seq in Hx. lia.
Qed.

(** ** C07 *)
Lemma diag_loop_not_nil_may : forall t M deeper ob oc ds, diag_loop t M deeper ob oc ds true <> RNil.
Proof.
  induction ds as [|d ds IH]; cbn [diag_loop]; [discriminate|].
  destruct (build_col t M d oc); auto. cbv zeta.
  destruct (find_block _ _ _ _ _) as [[]|]; [discriminate|].
  destruct (deeper _ _); auto; discriminate.
Qed.

Lemma diag_loop_not_nil : forall t M deeper ob oc ds d col,
  In d ds -> build_col t M d oc = Some col ->
  deeper (ob ++ [nth (length ob) col 0]) col <> RNil ->
  forall may, diag_loop t M deeper ob oc ds may <> RNil.
Proof.
  intros t M deeper ob oc ds d col Hin B Hd.
  induction ds as [|d' ds IH]; intros may; [destruct Hin|]. cbn [diag_loop].
  destruct Hin as [->|Hin].
  - rewrite B. cbv zeta. destruct (find_block _ _ _ _ _) as [[]|]; [discriminate|].
    destruct (deeper _ _) eqn:E; [congruence| |discriminate]. apply diag_loop_not_nil_may.
  - destruct (build_col t M d' oc); [|apply IH; auto]. cbv zeta.
    destruct (find_block _ _ _ _ _) as [[]|]; [discriminate|].
    match goal with |- context [match deeper ?x ?y with _ => _ end] => destruct (deeper x y) end;
    [apply IH; auto | apply IH; auto | discriminate].
Qed.

Section Triangle.
Variable t : list nat.
Variable M : nat.
Hypothesis Hok : table_ok M t.
Variable X : nat -> nat -> nat.
Variable t0 q0 B : nat.
Hypothesis HB : B <= t0.
Hypothesis XP : forall s q, s < t0 -> q < q0 + B -> t0 - B <= s ->
  table_protocol M t (X (S s) q) (X s (S q)) (X (S s) (S q)).
Hypothesis Xmin : forall s q, t0 - B <= s -> s <= t0 -> q <= q0 + B -> X t0 q0 <= X s q < M.

(** row t0 from column q0 on; column q0+n from row t0-n to t0 *)
Definition tri_bot (n : nat) : list nat := map (fun j => X t0 (q0 + j)) (seq 0 (S n)).
Definition tri_col (n : nat) : list nat := map (fun i => X (t0 - n + i) (q0 + n)) (seq 0 (S n)).

Lemma tri_build_gen : forall len n s, n < B -> t0 - B <= s -> s + len <= t0 ->
  build_col t M (X s (q0 + S n)) (map (fun i => X (S s + i) (q0 + n)) (seq 0 len)) =
  Some (map (fun i => X (s + i) (q0 + S n)) (seq 0 (S len))).
Proof.
  induction len; intros n s Hn Hs Hle.
  - simpl. rewrite Nat.add_0_r. reflexivity.
  - cbn [seq map build_col]. rewrite !Nat.add_0_r.
    pose proof (XP s (q0 + n) ltac:(lia) ltac:(lia) Hs) as HP.
    replace (S (q0 + n)) with (q0 + S n) in HP by lia.
    apply protocol_ppg in HP; auto. destruct HP as (_ & _ & H3 & H4).
    rewrite H4. replace (X (S s) (q0 + S n) =? M) with false by (symmetry; apply Nat.eqb_neq; lia).
    rewrite <- (seq_shift len 0), map_map.
    replace (map (fun x => X (S s + S x) (q0 + n)) (seq 0 len))
      with (map (fun i => X (S (S s) + i) (q0 + n)) (seq 0 len)).
    2:{ apply map_ext. intros i. f_equal. lia. }
    rewrite IHlen by lia. f_equal. f_equal.
    cbn [seq map]. rewrite Nat.add_0_r. f_equal; [f_equal; lia|].
    rewrite <- (seq_shift len 1), map_map. apply map_ext. intros i. f_equal. lia.
Qed.

Lemma tri_build : forall n, n < B ->
  build_col t M (X (t0 - S n) (q0 + S n)) (tri_col n) = Some (tri_col (S n)).
Proof.
  intros n Hn. unfold tri_col.
  replace (map (fun i => X (t0 - n + i) (q0 + n)) (seq 0 (S n)))
    with (map (fun i => X (S (t0 - S n) + i) (q0 + n)) (seq 0 (S n))).
  2:{ apply map_ext. intros i. f_equal. lia. }
  rewrite tri_build_gen by lia. reflexivity.
Qed.

Lemma tri_bot_S : forall n, n < B ->
  tri_bot n ++ [nth (length (tri_bot n)) (tri_col (S n)) 0] = tri_bot (S n).
Proof.
  intros n Hn. unfold tri_bot at 2. rewrite map_length, seq_length.
  unfold tri_bot at 2. rewrite (seq_S (S n)), map_app. unfold tri_bot. f_equal. cbn [map]. f_equal.
  unfold tri_col.
  rewrite (nth_indep _ 0 (X (t0 - S n + 0) (q0 + S n))) by (rewrite map_length, seq_length; lia).
  rewrite (map_nth (fun i => X (t0 - S n + i) (q0 + S n))).
  rewrite seq_nth by lia. f_equal. lia.
Qed.

Lemma tri_semick : forall k n, n + k < B -> semick_rec t M k (tri_bot n) (tri_col n) <> RNil.
Proof.
  induction k; intros n Hk; cbn [semick_rec];
  (apply diag_loop_not_nil with (d := X (t0 - S n) (q0 + S n)) (col := tri_col (S n));
   [ apply in_seq; pose proof (Xmin (t0 - S n) (q0 + S n) ltac:(lia) ltac:(lia) ltac:(lia));
     unfold tri_bot; cbn [seq map hd]; rewrite Nat.add_0_r; lia
   | apply tri_build; lia
   | ]).
  - discriminate.
  - rewrite tri_bot_S by lia. apply IHk. lia.
Qed.
End Triangle.

Lemma semick_loop_not_nil_may : forall M k cs t, semick_loop M k cs t true <> RNil.
Proof.
  induction cs as [|c cs IH]; intros t; cbn [semick_loop]; [discriminate|].
  destruct (semick_rec t M k [c] [c]); auto; discriminate.
Qed.

Lemma semick_loop_not_nil : forall M k cs c t,
  (forall t', table_ok M t' -> (forall a b v, c <= a -> c <= b -> c <= v ->
      table_protocol M t a b v -> table_protocol M t' a b v) ->
      semick_rec t' M k [c] [c] <> RNil) ->
  table_ok M t -> 
  (exists l1 l2, cs = l1 ++ c :: l2 /\ Forall (fun x => x < c) l1) ->
  forall may, semick_loop M k cs t may <> RNil.
Proof.
  intros M k cs c t H Hok (l1 & l2 & -> & Fl).
  assert (G : forall l1 t', Forall (fun x => x < c) l1 -> table_ok M t' ->
     (forall a b v, c <= a -> c <= b -> c <= v ->
        table_protocol M t a b v -> table_protocol M t' a b v) ->
     forall may, semick_loop M k (l1 ++ c :: l2) t' may <> RNil).
  { clear Fl l1. induction l1 as [|x l1 IH]; intros t' Fl Hok' Hsub may; cbn [app semick_loop].
    - specialize (H t' Hok' Hsub). destruct (semick_rec t' M k [c] [c]); [congruence| |discriminate].
      apply semick_loop_not_nil_may.
    - inversion Fl; subst.
      assert (forall may, semick_loop M k (l1 ++ c :: l2) (remove_value M x t') may <> RNil).
      { apply IH; auto using remove_value_ok. intros a b v G1 G2 G3 HP.
        apply remove_value_keep; auto; lia. }
      destruct (semick_rec t' M k [x] [x]); auto. discriminate. }
  apply G; auto.
Qed.

Lemma seq_split_at : forall M c, c < M ->
  exists l1 l2, seq 0 M = l1 ++ c :: l2 /\ Forall (fun x => x < c) l1.
Proof.
  intros M c H. exists (seq 0 c), (seq (S c) (M - S c)). split.
  - replace M with (c + S (M - S c)) at 1 by lia. rewrite seq_app. reflexivity.
  - apply Forall_forall. intros x Hx. apply in_seq in Hx. lia.
Qed.

Lemma table_protocol_fun : forall M t, table_ok M t -> forall a b c,
  table_protocol M t a b c <-> a < M /\ b < M /\ c < M /\ ppg t M a b = c.
Proof.
  intros M t Hok a b c. split.
  - apply protocol_ppg; auto.
  - intros (H1 & H2 & H3 & H4). rewrite <- H4. apply ppg_protocol; auto. lia.
Qed.

Lemma ring_step_ext : forall (P Q : protocol) s s',
  (forall a b c, P a b c -> Q a b c) -> ring_step P s s' -> ring_step Q s s'.
Proof. intros P Q s s' H (p & a & b & c & H1 & H2 & H3 & H4). exists p, a, b, c. auto. Qed.

Lemma livelock_on_ext : forall (P Q : protocol) M N,
  (forall a b c, P a b c -> Q a b c) -> livelock_on P M N -> livelock_on Q M N.
Proof.
  intros P Q M N H (e & H1 & H2 & H3). exists e. repeat split; auto.
  intros k. eapply ring_step_ext; eauto.
Qed.

(** A ring of one process. *)
Lemma argmin : forall (f : nat -> nat) L, 1 <= L -> exists m, m < L /\ forall k, k < L -> f m <= f k.
Proof.
  intros f. induction L as [|L IH]; intros H; [lia|].
  destruct L; [exists 0; split; auto; intros k Hk; replace k with 0 by lia; auto|].
  destruct IH as (m & Hm & Hmin); [lia|].
  destruct (le_lt_dec (f m) (f (S L))) as [G|G].
  - exists m. split; [lia|]. intros k Hk. destruct (Nat.eq_dec k (S L)) as [->|E]; auto. apply Hmin. lia.
  - exists (S L). split; [lia|]. intros k Hk. destruct (Nat.eq_dec k (S L)) as [->|E]; auto.
    specialize (Hmin k ltac:(lia)). lia.
Qed.

Lemma grid_one : forall M (P : protocol), (forall a b c, P a b c -> c < M) ->
  livelock_on P M 1 ->
  forall n, exists (X : nat -> nat -> nat) t0 q0,
    n <= t0 /\
    (forall s q, s < t0 + n -> q < q0 + n -> P (X (S s) q) (X s (S q)) (X (S s) (S q))) /\
    (forall s q, s <= t0 + n -> q <= q0 + n -> X t0 q0 <= X s q).
Proof.
  intros M P HP (e & L0 & D0 & St) n.
  set (v := fun k => nth 0 (e k) 0).
  assert (HV : forall k, e k = [v k] /\ v k < M).
  { induction k.
    - unfold v. destruct (e 0) as [|x [|y l]]; try discriminate. split; auto.
      inversion D0; auto.
    - destruct IHk as [E _]. destruct (St k) as (p & a & b & c & H1 & H2 & H3 & H4).
      rewrite E in *. destruct p; [|destruct p; discriminate].
      unfold v. rewrite H4. simpl. split; auto. eapply HP; eauto. }
  assert (HS : forall k, P (v k) (v k) (v (S k))).
  { intros k. destruct (HV k) as [E _], (HV (S k)) as [E' _].
    destruct (St k) as (p & a & b & c & H1 & H2 & H3 & H4).
    rewrite E in *. destruct p; [|destruct p; discriminate]. simpl in H1, H2.
    injection H1 as <-. injection H2 as <-. rewrite E' in H4. simpl in H4. injection H4 as <-. auto. }
  destruct (pigeonhole _ Nat.eq_dec (seq 0 M) v) as (i & j & Hij & E).
  { intros k _. apply in_seq. destruct (HV k). lia. }
  set (L := j - i). set (w := fun k => v (i + k mod L)).
  assert (HL : 1 <= L) by (unfold L; lia).
  assert (HW : forall k, P (w k) (w k) (w (S k))).
  { intros k. unfold w. pose proof (Nat.mod_upper_bound k L ltac:(lia)).
    assert (E' : v (i + S k mod L) = v (S (i + k mod L))).
    { pose proof (Nat.div_mod k L ltac:(lia)).
      destruct (Nat.eq_dec (S (k mod L)) L) as [EL|EL].
      - replace (S k) with (0 + (S (k / L)) * L) by nia. rewrite Nat.mod_add by lia.
        rewrite Nat.mod_0_l by lia. rewrite Nat.add_0_r. rewrite E. f_equal. unfold L in *. lia.
      - replace (S k) with (S (k mod L) + (k / L) * L) by lia. rewrite Nat.mod_add by lia.
        rewrite Nat.mod_small by lia. f_equal. lia. }
    rewrite E'. apply HS. }
  destruct (argmin (fun k => v (i + k)) L HL) as (m & Hm & Hmin).
  exists (fun s q => w (s + q)), (m + n * L), 0. split; [nia|]. split.
  - intros s q _ _. replace (s + S q) with (S s + q) by lia. replace (S s + S q) with (S (S s + q)) by lia.
    apply HW.
  - intros s q _ _. rewrite Nat.add_0_r. unfold w. rewrite Nat.mod_add by lia.
    rewrite (Nat.mod_small m) by lia. apply Hmin. apply Nat.mod_upper_bound. lia.
Qed.

(** Grid form of a livelock of a table protocol. *)
Lemma table_grid : forall M t N, table_ok M t -> self_disabling (table_protocol M t) ->
  livelock_on (table_protocol M t) M N ->
  forall n, exists (X : nat -> nat -> nat) t0 q0,
    n <= t0 /\
    (forall s q, s < t0 + n -> q < q0 + n ->
       table_protocol M t (X (S s) q) (X s (S q)) (X (S s) (S q))) /\
    (forall s q, s <= t0 + n -> q <= q0 + n -> X t0 q0 <= X s q).
Proof.
  intros M t N Hok SD HL n.
  destruct N as [|[|N]].
  { destruct HL as (e & L0 & _ & St). destruct (St 0) as (p & a & b & c & _ & H & _).
    destruct (e 0); [destruct p|]; discriminate. }
  { apply (grid_one M); auto. intros a b c H. apply table_protocol_range in H. tauto. }
  assert (HN : 2 <= S (S N)) by lia. revert HN HL. generalize (S (S N)). clear N. intros N HN HL.
  pose proof (table_protocol_fun M t Hok) as HF.
  destruct (grid_of_livelock (ppg t M) M N HN) with (n := n) as (X & t0 & q0 & H1 & H2 & H3).
  - intros a b c d P1 P2. apply HF in P1, P2. apply (SD a b c d); auto.
  - eapply livelock_on_ext; eauto. intros a b c. apply HF.
  - exists X, t0, q0. split; auto. split; auto. intros s q Hs Hq. apply HF. auto.
Qed.

Lemma livelock_semick_nil : forall limit t M, table_ok M t ->
  self_disabling (table_protocol M t) ->
  livelock_semick limit t M = RNil ->
  livelock_free (table_protocol M t) M.
Proof.
  intros limit t M Hok SD H N HL.
  set (B := limit + 2).
  destruct (table_grid M t N Hok SD HL B) as (X & t0 & q0 & H1 & H2 & H3).
  assert (HM : forall s q, s <= t0 -> q <= q0 + B -> 0 < s \/ 0 < q -> X s q < M).
  { intros s q Hs Hq Hp. destruct s.
    - destruct q; [lia|]. destruct (H2 0 q ltac:(unfold B in *; lia) ltac:(lia)) as (_ & ? & _). auto.
    - destruct q.
      + destruct (H2 s 0 ltac:(lia) ltac:(unfold B; lia)) as (? & _). auto.
      + destruct (H2 s q ltac:(lia) ltac:(lia)) as (_ & _ & ? & _). auto. }
  assert (Hc : X t0 q0 < M) by (apply HM; unfold B in *; lia).
  unfold livelock_semick in H. revert H.
  apply semick_loop_not_nil with (c := X t0 q0); auto; [|apply seq_split_at; auto].
  intros t' Hok' Hsub.
  pose proof (tri_semick t' M Hok' X t0 q0 (limit + 1) ltac:(unfold B in *; lia)) as T.
  assert (E1 : tri_bot X t0 q0 0 = [X t0 q0]).
  { unfold tri_bot. simpl. rewrite Nat.add_0_r. auto. }
  assert (E2 : tri_col X t0 q0 0 = [X t0 q0]).
  { unfold tri_col. simpl. rewrite Nat.sub_0_r, !Nat.add_0_r. auto. }
  specialize (T ltac:(intros s q Hs Hq Hb; apply Hsub;
    [apply H3; unfold B; lia | apply H3; unfold B; lia | apply H3; unfold B; lia
    | apply H2; unfold B; lia])).
  specialize (T ltac:(intros s q Hb Hs Hq; split;
    [apply H3; unfold B; lia | apply HM; unfold B in *; lia])).
  specialize (T (limit - 1) 0). rewrite E1, E2 in T. apply T. lia.
Qed.
