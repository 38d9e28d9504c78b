(** Proofs about the guided check, the cycle search and the tile digraphs. *)
From Coq Require Import List Arith Lia Bool.
From Verif Require Import FinLib UniModel UniSpec UniProofs LivelockModel LivelockSpec
  GridLivelock LivelockProofs LivelockProofs2 TileModel TileSpec.
Import ListNotations.

(** ** Guided check *)
Section Guided.
Variables (t : list nat) (M : nat).
Hypothesis Hok : table_ok M t.
Let P : protocol := table_protocol M t.

Definition west_of (row : list nat) (j : nat) : nat :=
  if j =? 0 then nth (length row - 1) row 0 else nth (j - 1) row 0.

Definition row_step (top mid : list nat) : Prop :=
  length mid = length top /\
  forall j, j < length top -> P (west_of mid j) (nth j top 0) (nth j mid 0).

Definition vok (l : list nat) : Prop := Forall (fun v => v < M) l.

Lemma guided_row_spec : forall top w r, w < M -> vok top -> guided_row t M w top = Some r ->
  length r = length top /\ vok r /\
  forall j, j < length top -> P (nth j (w :: r) 0) (nth j top 0) (nth j r 0).
Proof.
  induction top as [|b top IH]; intros w r Hw V H; cbn [guided_row] in H.
  - injection H as <-. split; auto. split; [constructor|]. intros; simpl in *; lia.
  - destruct (Nat.leb_spec M (ppg t M w b)) as [G|G]; [discriminate|].
    destruct (guided_row t M (ppg t M w b) top) as [r'|] eqn:E; [|discriminate].
    injection H as <-. inversion V; subst. apply IH in E; auto. destruct E as (L & Vr & E).
    split; [simpl; auto|]. split; [constructor; auto|].
    intros [|j] Hj; [cbn [nth]; apply ppg_protocol; auto; lia|]. simpl in Hj. apply (E j). lia.
Qed.

Lemma row_ids_in : forall top mid w i, length mid = length top -> In i (row_ids M w top mid) ->
  exists j, j < length top /\ i = id_of3 (nth j (w :: mid) 0) (nth j top 0) (nth j mid 0) M.
Proof.
  induction top as [|b top IH]; intros [|c mid] w i L H; simpl in *; try lia; try easy.
  destruct H as [<-|H]; [exists 0; split; auto; lia|].
  destruct (IH mid c i ltac:(lia) H) as (j & Hj & ->). exists (S j). split; [lia|auto].
Qed.

Definition is_action_id (i : nat) : Prop := exists a b c, P a b c /\ i = id_of3 a b c M.

Lemma guided_loop_yes : forall rec own ws imp ids, guided_loop rec own ws imp = GYes ids ->
  exists w ids', In w ws /\ rec w = GYes ids' /\ ids = ids' ++ own.
Proof.
  induction ws as [|w ws IH]; intros imp ids H; cbn [guided_loop] in H; [destruct imp; discriminate|].
  destruct (rec w) as [| |ids'] eqn:E.
  - destruct (IH _ _ H) as (w' & i' & ? & ? & ?). exists w', i'. split; [right|]; auto.
  - destruct (IH _ _ H) as (w' & i' & ? & ? & ?). exists w', i'. split; [right|]; auto.
  - exists w, ids'. split; [left; auto|]. split; auto. congruence.
Qed.

Lemma guided_rec_yes : forall norths limit top w ids, w < M -> vok top -> 1 <= length top ->
  guided_rec t M norths limit top w = GYes ids ->
  (exists m (R : nat -> list nat), 1 <= m /\ R 0 = top /\ R m = norths /\
     forall i, i < m -> row_step (R i) (R (S i))) /\
  Forall is_action_id ids.
Proof.
  intros norths. induction limit as [|limit IH]; intros top w ids Hw V L H; cbn [guided_rec] in H.
  all: destruct (guided_row t M w top) as [mid|] eqn:E; [|discriminate].
  all: apply guided_row_spec in E; auto; destruct E as (Lm & Vm & Em).
  all: destruct (Nat.eqb_spec (last mid 0) w) as [EW|]; cbn [negb] in H; [|discriminate].
  all: rewrite last_nth in EW.
  all: assert (RS : row_step top mid);
    [split; auto; intros j Hj; specialize (Em j Hj); unfold west_of; destruct j;
      [simpl Nat.eqb; cbv iota; rewrite EW; auto|
       simpl Nat.eqb; cbv iota; replace (S j - 1) with j by lia; auto]|].
  all: destruct (nat_list_eqb mid norths) eqn:EN.
  1,3: apply nat_list_eqb_eq in EN; subst norths; injection H as <-; split; [|constructor];
    exists 1, (fun i => if i =? 0 then top else mid); split; [lia|];
    split; [reflexivity|]; split; [reflexivity|]; intros i Hi; replace i with 0 by lia; exact RS.
  - discriminate.
  - apply guided_loop_yes in H. destruct H as (w' & ids' & Hw' & Hrec & ->).
    apply in_seq in Hw'. apply IH in Hrec; auto; try lia.
    destruct Hrec as ((m & R & Hm & R0 & Rm & Rs) & F). split.
    + exists (S m), (fun i => match i with 0 => top | S i' => R i' end).
      split; [lia|]. split; auto. split; auto. intros i Hi. destruct i; [rewrite R0; auto|].
      apply Rs. lia.
    + apply Forall_app. split; auto. apply Forall_forall. intros i Hi.
      apply row_ids_in in Hi; auto. destruct Hi as (j & Hj & ->).
      exists (nth j (w :: mid) 0), (nth j top 0), (nth j mid 0). split; [apply (Em j Hj)|reflexivity].
Qed.

Lemma guided_first_some : forall rec ws ids, guided_first rec ws = Some ids ->
  exists w, In w ws /\ rec w = GYes ids.
Proof.
  induction ws as [|w ws IH]; intros ids H; cbn [guided_first] in H; [discriminate|].
  destruct (rec w) eqn:E; try (destruct (IH _ H) as (w' & ? & ?); exists w'; split; [right|]; auto).
  injection H as <-. exists w. split; [left|]; auto.
Qed.

Lemma nth_snd : forall (l : list (nat * nat)) j, nth j (map snd l) 0 = snd (nth j l (0, 0)).
Proof. induction l; destruct j; simpl; auto. Qed.

Lemma guided_sound : forall acts limit ids cs,
  closed_chain P acts cs -> guided_livelock_ck t M acts limit = Some ids ->
  livelocks_on_large_rings P M /\ Forall is_action_id ids.
Proof.
  intros acts limit ids cs (Lc & Ne & HC) H. unfold guided_livelock_ck in H.
  destruct (guided_first _ _) as [ids'|] eqn:E; [|discriminate]. injection H as <-.
  apply guided_first_some in E. destruct E as (w & Hw & E). apply in_seq in Hw.
  assert (HL : 1 <= length acts) by (destruct acts; [congruence|simpl; lia]).
  assert (Htop : acts_row t M acts = cs).
  { apply list_ext_nth with (d := 0); [unfold acts_row; rewrite map_length; auto|].
    unfold acts_row. rewrite map_length. intros j Hj. destruct (HC j Hj) as [Hp _].
    rewrite (nth_indep _ 0 (ppg t M (fst (0, 0)) (snd (0, 0)))) by (rewrite map_length; auto).
    rewrite (map_nth (fun ab => ppg t M (fst ab) (snd ab))). apply protocol_ppg in Hp; auto. tauto. }
  rewrite Htop in E.
  assert (Vc : vok cs).
  { apply Forall_forall. intros v Hv. apply (In_nth _ _ 0) in Hv. destruct Hv as (j & Hj & <-).
    destruct (HC j ltac:(lia)) as [Hp _]. apply table_protocol_range in Hp. tauto. }
  apply guided_rec_yes in E; auto; try lia. destruct E as ((m & R & Hm & R0 & Rm & Rs) & F). split.
  - set (R' := fun i => match i with 0 => map snd acts | S i' => R i' end).
    assert (Rs' : forall i, i < S m -> row_step (R' i) (R' (S i))).
    { intros i Hi. destruct i; [|apply Rs; lia]. unfold R'. rewrite R0. split; [rewrite map_length; auto|].
      rewrite map_length. intros j Hj. destruct (HC j Hj) as [Hp _]. rewrite nth_snd.
      replace (west_of cs j) with (fst (nth j acts (0, 0))); auto.
      unfold west_of. destruct j.
      - simpl. destruct (HC (length acts - 1) ltac:(lia)) as [_ Hn].
        replace (S (length acts - 1)) with (length acts) in Hn by lia. rewrite Nat.eqb_refl in Hn.
        rewrite Hn, Lc. reflexivity.
      - simpl Nat.eqb. cbv iota. replace (S j - 1) with j by lia.
        destruct (HC j ltac:(lia)) as [_ Hn].
        destruct (Nat.eqb_spec (S j) (length acts)); [lia|]. auto. }
    assert (RL : forall i, i <= S m -> length (R' i) = length acts).
    { induction i; intros Hi; [simpl; apply map_length|].
      destruct (Rs' i ltac:(lia)) as [L _]. rewrite L. apply IHi. lia. }
    set (n := length acts) in *.
    set (G := fun i j => if j =? 0 then nth (n - 1) (R' i) 0 else nth (j - 1) (R' i) 0).
    assert (GP : forall i j, i < S m -> j < n -> P (G (S i) j) (G i (S j)) (G (S i) (S j))).
    { intros i j Hi Hj. destruct (Rs' i Hi) as [_ HS].
      specialize (HS j ltac:(rewrite RL by lia; auto)).
      unfold west_of in HS. rewrite RL in HS by lia. unfold G. simpl (S j =? 0). cbv iota.
      replace (S j - 1) with j by lia. exact HS. }
    assert (GE : forall i, i <= S m -> G i n = G i 0).
    { intros i Hi. unfold G. simpl (0 =? 0). cbv iota. destruct (Nat.eqb_spec n 0); auto. }
    assert (GM : forall j, G (S m) j = G 0 j).
    { intros j. unfold G, R'. rewrite Rm. reflexivity. }
    intros K. apply (block_grid P M (S m) n G); auto; try lia.
    intros i j Hi Hj.
    assert (G1 : forall i j, i <= S m -> j < n -> G i (S j) < M).
    { intros i' j' Hi' Hj'. destruct (Nat.eq_dec i' (S m)) as [->|Ni].
      - rewrite GM. specialize (GP 0 j' ltac:(lia) Hj'). apply table_protocol_range in GP. tauto.
      - specialize (GP i' j' ltac:(lia) Hj'). apply table_protocol_range in GP. tauto. }
    destruct j; [rewrite <- GE by auto; replace n with (S (n - 1)) by lia; apply G1; lia|].
    apply G1; lia.
  - apply Forall_app. split; auto. apply Forall_forall. intros i Hi. unfold acts_ids in Hi.
    apply in_map_iff in Hi. destruct Hi as ([a b] & <- & Hi). simpl.
    apply (In_nth _ _ (0, 0)) in Hi. destruct Hi as (j & Hj & Ej).
    destruct (HC j Hj) as [Hp _]. rewrite Ej in Hp. simpl in Hp.
    apply protocol_ppg in Hp; auto. exists a, b, (ppg t M a b). split; auto.
    destruct Hp as (? & ? & ? & Ec). apply ppg_protocol; auto. lia.
Qed.
End Guided.

(** ** Cycle search *)
Section Dfs.
Variables (n init : nat) (adj : nat -> list nat).
Hypothesis Hadj : forall x y, In y (adj x) -> y < n.
Let R (x y : nat) : Prop := In y (adj x).

Lemma next_unvisited_some : forall visited l i k y, next_unvisited visited l i = Some (k, y) ->
  i <= k /\ k - i < length l /\ nth (k - i) l 0 = y /\ nth y visited false = false /\
  forall z, In z (firstn (k - i) l) -> nth z visited false = true.
Proof.
  induction l as [|x l IH]; intros i k y H; cbn [next_unvisited] in H; [discriminate|].
  destruct (nth x visited false) eqn:E.
  - apply IH in H. destruct H as (H1 & H2 & H3 & H4 & H5).
    replace (k - i) with (S (k - S i)) by lia. simpl. repeat split; auto; try lia.
    intros z [<-|Hz]; auto.
  - injection H as <- <-. rewrite Nat.sub_diag. simpl. repeat split; auto; try lia; try easy.
Qed.

Lemma next_unvisited_none : forall visited l i, next_unvisited visited l i = None ->
  forall z, In z l -> nth z visited false = true.
Proof.
  induction l as [|x l IH]; intros i H z Hz; [easy|]. cbn [next_unvisited] in H.
  destruct (nth x visited false) eqn:E; [|discriminate].
  destruct Hz as [<-|Hz]; auto. eapply IH; eauto.
Qed.

Definition unvis (v : list bool) : nat := length (filter negb v).

Lemma unvis_upd : forall v y, nth y v true = false -> unvis (upd v y true) + 1 = unvis v.
Proof.
  unfold unvis. induction v as [|b v IH]; intros y H; destruct y; simpl in H; try discriminate.
  - subst b. simpl; lia.
  - specialize (IH y H). simpl. destruct b; simpl; lia.
Qed.

(** Stack (top first) is a path from [init], each entry's scanned arcs are visited. *)
Fixpoint stack_path (stack : list (nat * nat)) : Prop :=
  match stack with
  | [] => True
  | [(x, _)] => x = init
  | (y, _) :: (((x, _) :: _) as rest) => R x y /\ stack_path rest
  end.

Definition inv (stack : list (nat * nat)) (visited : list bool) : Prop :=
  length visited = n /\ stack_path stack /\ nth init visited false = false /\
  (forall x i, In (x, i) stack -> forall z, In z (firstn i (adj x)) -> nth z visited false = true) /\
  (forall x, nth x visited false = true \/ x = init ->
     In x (map fst stack) \/ forall z, R x z -> nth z visited false = true).

Lemma nth_firstn_S : forall (l : list nat) i z, In z (firstn (i + 1) l) -> i < length l ->
  In z (firstn i l) \/ z = nth i l 0.
Proof.
  induction l as [|a l IH]; intros i z H Hi; [simpl in Hi; lia|].
  destruct i; simpl in H.
  - destruct H as [<-|[]]. right; auto.
  - destruct H as [<-|H]; [left; left; auto|]. apply IH in H; [|simpl in Hi; lia].
    destruct H as [H|H]; [left; right; auto|right; auto].
Qed.

Lemma firstn_skipn_in : forall (l : list nat) i z, In z l -> In z (firstn i l) \/ In z (skipn i l).
Proof.
  intros l i z H. rewrite <- (firstn_skipn i l) in H. apply in_app_iff in H. auto.
Qed.

Lemma in_firstn_in : forall (l : list nat) i z, In z (firstn i l) -> In z l.
Proof. intros l i z H. rewrite <- (firstn_skipn i l). apply in_or_app. auto. Qed.

Lemma dfs_spec : forall fuel stack visited, inv stack visited ->
  2 * unvis visited + length stack < fuel ->
  exists stack', dfs fuel init adj stack visited = Some stack' /\
    (stack' <> [] -> stack_path stack' /\ R (fst (hd (0, 0) stack')) init) /\
    (stack' = [] -> forall z, path R init z -> z <> init).
Proof.
  induction fuel as [|fuel IH]; intros stack visited I HF; [lia|]. cbn [dfs].
  destruct I as (Lv & SP & NI & HSt & HV).
  destruct stack as [|[x i0] rest].
  { exists []. split; auto. split; [congruence|]. intros _.
    assert (HC : forall x z, path R x z -> (nth x visited false = true \/ x = init) ->
      nth z visited false = true).
    { intros x z Hp. induction Hp as [x y Hxy|x y z Hxy Hp IHp]; intros Hx.
      - destruct (HV x Hx) as [[]|H]. auto.
      - destruct (HV x Hx) as [[]|H]. apply IHp. left. auto. }
    intros z Hp ->. rewrite (HC _ _ Hp) in NI; [discriminate|]. right; auto. }
  destruct (next_unvisited visited (skipn i0 (adj x)) i0) as [[i y]|] eqn:E.
  - apply next_unvisited_some in E. destruct E as (H1 & H2 & H3 & H4 & H5).
    rewrite skipn_length in H2.
    assert (Hy : nth i (adj x) 0 = y).
    { rewrite nth_skipn' in H3. replace (i0 + (i - i0)) with i in H3 by lia. auto. }
    assert (Rxy : R x y) by (unfold R; rewrite <- Hy; apply nth_In; lia).
    assert (Hyn : y < n) by (apply (Hadj x); auto).
    destruct (Nat.eqb_spec y init) as [->|Ny].
    + eexists. split; [reflexivity|]. split; [|discriminate].
      intros _. split; auto.
    + assert (Hfst : forall z, In z (firstn (i + 1) (adj x)) ->
                nth z (upd visited y true) false = true).
      { intros z Hz. rewrite nth_upd. destruct (Nat.eqb_spec z y) as [->|Nz]; simpl.
        - destruct (Nat.ltb_spec y (length visited)); [auto|lia].
        - apply nth_firstn_S in Hz; [|lia]. destruct Hz as [Hz|Hz]; [|congruence].
          rewrite <- (firstn_skipn i0 (firstn i (adj x))) in Hz. apply in_app_iff in Hz.
          destruct Hz as [Hz|Hz].
          + rewrite firstn_firstn in Hz. replace (Nat.min i0 i) with i0 in Hz by lia.
            apply (HSt x i0); [left; auto|auto].
          + rewrite skipn_firstn_comm in Hz. auto. }
      assert (Hkeep : forall z, nth z visited false = true -> nth z (upd visited y true) false = true).
      { intros z Hz. rewrite nth_upd. destruct (_ && _); auto. }
      apply IH.
      * split; [rewrite upd_length; auto|]. split; [|split; [|split]].
        -- split; auto.
        -- rewrite nth_upd_other; auto.
        -- intros x' i' [Heq|[Heq|Hin]] z Hz.
           ++ injection Heq as <- <-. destruct Hz.
           ++ injection Heq as <- <-. auto.
           ++ apply Hkeep. apply (HSt x' i'); [right; auto|auto].
        -- intros x' Hx'. rewrite nth_upd in Hx'.
           destruct (Nat.eq_dec x' y) as [->|Nx]; [left; left; auto|].
           replace (x' =? y) with false in Hx' by (symmetry; apply Nat.eqb_neq; auto).
           simpl in Hx'. destruct (HV x' Hx') as [H|H].
           ++ left. right. destruct H as [<-|H]; [left; auto|right; auto].
           ++ right. intros z Hz. apply Hkeep. auto.
      * assert (unvis (upd visited y true) + 1 = unvis visited).
        { apply unvis_upd. rewrite <- H4. apply nth_indep. lia. }
        cbn [length] in *. lia.
  - apply IH.
    + split; auto. split; [|split; [auto|split]].
      * destruct rest as [|[z k] rest]; simpl in *; tauto.
      * intros x' i' Hin. apply HSt. right; auto.
      * intros x' Hx'. destruct (HV x' Hx') as [[H|H]|H]; auto.
        simpl in H. subst x'. right. intros z Hz.
        destruct (firstn_skipn_in (adj x) i0 z Hz) as [Hz'|Hz'].
        -- apply (HSt x i0); [left; auto|auto].
        -- eapply next_unvisited_none; eauto.
    + cbn [length] in HF. lia.
Qed.

Lemma stack_path_chain : forall stack, stack <> [] -> stack_path stack ->
  chain R (map fst (rev stack)) /\ hd 0 (map fst (rev stack)) = init.
Proof.
  assert (CA : forall l x y, chain R (l ++ [x]) -> R x y -> chain R ((l ++ [x]) ++ [y])).
  { induction l as [|a l IH]; intros x y H1 H2; simpl in *; auto.
    destruct l; simpl in *; [tauto|]. destruct H1. split; auto. apply IH; auto. }
  induction stack as [|[y k] stack IH]; intros Hne HS; [congruence|].
  destruct stack as [|[x k'] rest]; [simpl in *; auto|].
  destruct HS as [Rxy HS]. destruct IH as [IH1 IH2]; [discriminate|auto|].
  cbn [rev] in *. rewrite !map_app in *. cbn [map fst] in *. split.
  - apply CA; auto.
  - destruct (map fst (rev rest)); simpl in *; auto.
Qed.

Lemma path_trans : forall x y z, path R x y -> path R y z -> path R x z.
Proof. intros x y z H. induction H; intros Hz; eapply path_more; eauto. Qed.

Lemma chain_path : forall l x, chain R (x :: l) -> l <> [] -> path R x (last l 0).
Proof.
  induction l as [|y l IH]; intros x H Hne; [congruence|]. destruct H as [H1 H2].
  destruct l as [|z l]; [apply path_one; auto|].
  eapply path_more; eauto. change (last (y :: z :: l) 0) with (last (z :: l) 0).
  apply IH; auto. discriminate.
Qed.

Lemma cycle_ck_spec : exists stack, cycle_ck_from n init adj = Some stack /\
  (stack <> [] -> chain R (map fst (rev stack)) /\ hd 0 (map fst (rev stack)) = init /\
     R (last (map fst (rev stack)) 0) init) /\
  (stack <> [] <-> path R init init).
Proof.
  unfold cycle_ck_from. destruct (Nat.eqb_spec (length (adj init)) 0) as [E|E].
  { exists []. split; auto. split; [congruence|]. split; [congruence|].
    intros H. exfalso. destruct (adj init) eqn:Ea; [|discriminate].
    inversion H; subst; unfold R in *; rewrite Ea in *; easy. }
  destruct (dfs_spec (2 * n + 2) [(init, 0)] (repeat false n)) as (stack & H1 & H2 & H3).
  - split; [apply repeat_length|]. split; [reflexivity|]. split; [apply nth_repeat'|]. split.
    + intros x i [Heq|[]] z Hz. injection Heq as <- <-. destruct Hz.
    + intros x [Hx|Hx]; [rewrite nth_repeat' in Hx; discriminate|]. subst x. left. left. auto.
  - assert (unvis (repeat false n) = n).
    { unfold unvis. clear. induction n; simpl; auto. }
    cbn [length]. lia.
  - exists stack. split; auto.
    assert (HC : stack <> [] -> chain R (map fst (rev stack)) /\ hd 0 (map fst (rev stack)) = init /\
     R (last (map fst (rev stack)) 0) init).
    { intros Hne. destruct (H2 Hne) as [SP HR]. destruct (stack_path_chain stack Hne SP) as [C1 C2].
      split; auto. split; auto. destruct stack as [|[x i] rest]; [congruence|].
      simpl rev. rewrite map_app. cbn [map fst]. rewrite last_last. exact HR. }
    split; auto. split.
    + intros Hne. destruct (HC Hne) as (C1 & C2 & C3).
      destruct (map fst (rev stack)) as [|x l] eqn:El.
      { destruct stack; [congruence|]. simpl in El. rewrite map_app in El.
        destruct (map fst (rev stack)); discriminate. }
      simpl in C2. subst x. destruct l as [|y l]; [apply path_one; exact C3|].
      apply path_trans with (y := last (y :: l) 0); [apply chain_path; auto; discriminate|].
      apply path_one. exact C3.
    + intros Hp E0. apply (H3 E0 _ Hp). reflexivity.
Qed.
End Dfs.

(** ** Tile digraphs *)
