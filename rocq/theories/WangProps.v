(** C86: ring protocols made from Wang tiles (/repo/src/uni/aperiodic.cc). *)
From Coq Require Import List Arith Bool NArith Lia.
From Verif Require Import UniModel UniSpec UniProofs LivelockModel LivelockSpec LivelockProofs LivelockProps LiveTorus WangModel WangSpec WangProofs WangProofs2.
Import ListNotations.

(** ** Properties of the rules and of the actions *)
Section Transfer.
Variables (enc : colour -> sym) (dec : sym -> colour) (R : rule) (m : list sym) (acts : list UniAct).
Hypothesis RE : realises enc R m acts.
Hypothesis DE : forall x y z, R x y z -> dec (enc x) = x /\ dec (enc y) = y /\ dec (enc z) = z.
Hypothesis CO : covers enc R m.
Lemma act_colours : forall a b c, protocol_of acts a b c -> R (colour_of dec m a) (colour_of dec m b) (colour_of dec m c).
Proof.
  intros a b c H. apply RE in H. destruct H as (x & y & z & H & H1 & H2 & H3). unfold colour_of.
  apply nth_of_error in H1, H2, H3. rewrite H1, H2, H3. destruct (DE x y z H) as (-> & -> & ->). auto.
Qed.
Lemma act_range : forall a b c, protocol_of acts a b c -> a < length m /\ b < length m /\ c < length m.
Proof. intros a b c H. apply RE in H. destruct H as (x & y & z & H & H1 & H2 & H3). repeat split; apply nth_error_Some; congruence. Qed.
Lemma self_disabling_transfer : (forall x y z u, R x y z -> ~ R x z u) -> self_disabling (protocol_of acts).
Proof. intros H a b c d H1 H2. apply act_colours in H1, H2. exact (H _ _ _ _ H1 H2). Qed.
Lemma N_disabling_transfer : (forall x y z u, R x y z -> ~ R z y u) -> N_disabling (protocol_of acts).
Proof. intros H a b c d H1 H2. apply act_colours in H1, H2. exact (H _ _ _ _ H1 H2). Qed.
Lemma deterministic_transfer : deterministic (protocol_of acts) <-> (forall x y z u, R x y z -> R x y u -> z = u).
Proof.
  split.
  - intros D x y z u H1 H2. destruct (CO _ _ _ H1) as (a & b & c & A1 & A2 & A3). destruct (CO _ _ _ H2) as (a' & b' & c' & B1 & B2 & B3).
    assert (E : c = c').
    { apply (D a b); apply RE; [exists x, y, z; auto|]. exists x, y, u. split; auto. }
    subst c'. assert (E : enc z = enc u) by congruence. destruct (DE _ _ _ H1) as (_ & _ & <-). destruct (DE _ _ _ H2) as (_ & _ & <-). rewrite E. auto.
  - intros D a b c d H1 H2. pose proof (proj1 (proj2 (proj2 RE) a b c) H1) as (x & y & z & K & A1 & A2 & A3). pose proof (proj1 (proj2 (proj2 RE) a b d) H2) as (x' & y' & z' & K' & B1 & B2 & B3).
    assert (Ex : x = x'). { destruct (DE _ _ _ K) as (<- & _ & _). destruct (DE _ _ _ K') as (<- & _ & _). f_equal. congruence. }
    assert (Ey : y = y'). { destruct (DE _ _ _ K) as (_ & <- & _). destruct (DE _ _ _ K') as (_ & <- & _). f_equal. congruence. }
    subst. assert (z = z') by (apply (D x' y'); auto). subst. apply (nth_error_inj m c d (enc z')); auto. apply RE.
Qed.
End Transfer.

Lemma plain_good : forall W, colours_ok W -> forall x y z, plain W x y z -> dec1 (enc1 x) = x /\ dec1 (enc1 y) = y /\ dec1 (enc1 z) = z.
Proof.
  intros W OK x y z H. inversion H as [w n s e I|w n s e I|w n s e I|w n s e I]; subst; apply OK in I; unfold south in I;
    (split; [|split]); apply dec_enc1; cbn; auto; left; lia.
Qed.
Lemma both_good : forall W x y z, both W x y z -> dec2 (enc2 x) = x /\ dec2 (enc2 y) = y /\ dec2 (enc2 z) = z.
Proof. intros. rewrite !dec_enc2. auto. Qed.
Lemma plain_det : forall W, (forall x y z u, plain W x y z -> plain W x y u -> z = u) <-> NW_deterministic W.
Proof.
  intros W. split.
  - intros D (((w & n) & s) & e) (((w' & n') & s') & e') I I' E1 E2. cbn in E1, E2. subst. specialize (D _ _ _ _ (p1 W w' n' s e I) (p1 W w' n' s' e' I')). congruence.
  - intros D x y z u H1 H2. inversion H1 as [w n s e I|w n s e I|w n s e I|w n s e I]; subst; inversion H2 as [w' n' s' e' I'|w' n' s' e' I'|w' n' s' e' I'|w' n' s' e' I']; subst; auto.
    specialize (D _ _ I I' eq_refl eq_refl). congruence.
Qed.
Lemma both_det : forall W, (forall x y z u, both W x y z -> both W x y u -> z = u) <-> NW_deterministic W.
Proof.
  intros W. split.
  - intros D (((w & n) & s) & e) (((w' & n') & s') & e') I I' E1 E2. cbn in E1, E2. subst. specialize (D _ _ _ _ (or_introl (h1 W w' n' s e I)) (or_introl (h1 W w' n' s' e' I'))). congruence.
  - intros D x y z u H1 H2. destruct H1 as [H1|H1]; inversion H1 as [w n s e I|w n s e I|w n s e I|w n s e I|w n s e I|w n s e I|w n s e I|w n s e I|w n s e I]; subst;
    destruct H2 as [H2|H2]; inversion H2 as [w' n' s' e' I'|w' n' s' e' I'|w' n' s' e' I'|w' n' s' e' I'|w' n' s' e' I'|w' n' s' e' I'|w' n' s' e' I'|w' n' s' e' I'|w' n' s' e' I']; subst; auto;
    specialize (D _ _ I I' eq_refl eq_refl); congruence.
Qed.
Lemma plain_disables : forall W x y z u, plain W x y z -> ~ plain W x z u /\ ~ plain W z y u.
Proof. intros W x y z u H. inversion H; subst; split; intros K; inversion K. Qed.
Lemma both_disables : forall W x y z u, both W x y z -> ~ both W x z u /\ ~ both W z y u.
Proof. intros W x y z u H. destruct H as [H|H]; inversion H; subst; split; intros [K|K]; inversion K. Qed.

(** ** C86 *)
(** The actions are in increasing order without repetition, and all their values are below the
    domain size that goes with them. *)
Theorem C86_actions_are_in_the_domain :
  forall W reduce, reduce = ReduceToActionTiles W \/ reduce = ReduceToCommutativeTiles W ->
  1 <= snd reduce /\ NoDup (fst reduce) /\ forall a b c, In (a, b, c) (fst reduce) -> a < snd reduce /\ b < snd reduce /\ c < snd reduce.
Proof.
  intros W r [->| ->].
  - destruct (plain_reduction W) as (m & doll & RE & -> & D & CO). split; [assert (doll < length m) by (apply nth_error_Some; congruence); lia|].
    split; [apply sorted_NoDup, RE|]. exact (act_range enc1 (plain W) m _ RE).
  - destruct (both_reduction W) as (m & doll & RE & -> & D & CO). split; [assert (doll < length m) by (apply nth_error_Some; congruence); lia|].
    split; [apply sorted_NoDup, RE|]. exact (act_range enc2 (both W) m _ RE).
Qed.
Print Assumptions C86_actions_are_in_the_domain.

(** The actions are always self-disabling (the code's W-disabling) and N-disabling. *)
Theorem C86_actions_disable_themselves :
  forall W, (colours_ok W -> self_disabling (protocol_of (fst (ReduceToActionTiles W))) /\ N_disabling (protocol_of (fst (ReduceToActionTiles W)))) /\
  self_disabling (protocol_of (fst (ReduceToCommutativeTiles W))) /\ N_disabling (protocol_of (fst (ReduceToCommutativeTiles W))) /\
  commutative_protocol (protocol_of (fst (ReduceToCommutativeTiles W))).
Proof.
  intros W. split; [|split; [|split]].
  - intros OK. destruct (plain_reduction W) as (m & doll & RE & _ & D & CO). split.
    + apply (self_disabling_transfer enc1 dec1 (plain W) m _ RE (plain_good W OK)). intros x y z u H. apply (plain_disables W x y z u H).
    + apply (N_disabling_transfer enc1 dec1 (plain W) m _ RE (plain_good W OK)). intros x y z u H. apply (plain_disables W x y z u H).
  - destruct (both_reduction W) as (m & doll & RE & _ & D & CO). apply (self_disabling_transfer enc2 dec2 (both W) m _ RE (both_good W)). intros x y z u H. apply (both_disables W x y z u H).
  - destruct (both_reduction W) as (m & doll & RE & _ & D & CO). apply (N_disabling_transfer enc2 dec2 (both W) m _ RE (both_good W)). intros x y z u H. apply (both_disables W x y z u H).
  - destruct (both_reduction W) as (m & doll & RE & _ & D & CO). intros a b c H. apply RE in H. apply RE. destruct H as (x & y & z & H & H1 & H2 & H3). exists y, x, z. split; [apply both_swap; auto|auto].
Qed.
Print Assumptions C86_actions_disable_themselves.

(** The final check of the program says no exactly when the tiles are not NW-deterministic. *)
Theorem C86_constraint_check_is_exact :
  forall W, (colours_ok W -> (check_constraints (fst (ReduceToActionTiles W)) false = true <-> NW_deterministic W)) /\
  (check_constraints (fst (ReduceToCommutativeTiles W)) true = true <-> NW_deterministic W).
Proof.
  intros W. destruct (C86_actions_disable_themselves W) as (P1 & P2 & P3 & P4). split.
  - intros OK. destruct (P1 OK) as (Q1 & Q2). destruct (plain_reduction W) as (m & doll & RE & _ & D & CO).
    rewrite check_constraints_spec by (apply sorted_NoDup, RE). rewrite <- plain_det. rewrite <- (deterministic_transfer enc1 dec1 (plain W) m _ RE (plain_good W OK) CO).
    split; [tauto|]. intros H. split; auto. split; auto. split; auto. discriminate.
  - destruct (both_reduction W) as (m & doll & RE & _ & D & CO).
    rewrite check_constraints_spec by (apply sorted_NoDup, RE). rewrite <- both_det. rewrite <- (deterministic_transfer enc2 dec2 (both W) m _ RE (both_good W) CO).
    split; [tauto|]. intros H. split; auto.
Qed.
Print Assumptions C86_constraint_check_is_exact.

(** The check on any list of actions without repetitions. *)
Theorem C86_check_constraints_meaning :
  forall acts commutative, NoDup acts ->
  (check_constraints acts commutative = true <->
   deterministic (protocol_of acts) /\ self_disabling (protocol_of acts) /\ N_disabling (protocol_of acts) /\
   (commutative = true -> commutative_protocol (protocol_of acts))).
Proof. exact check_constraints_spec. Qed.
Print Assumptions C86_check_constraints_meaning.

(** Both reductions keep what can be tiled, in general and periodically. *)
Theorem C86_action_tiles_tile_what_the_wang_tiles_do :
  forall W, colours_ok W ->
  (action_tiles (protocol_of (fst (ReduceToActionTiles W))) <-> wang_tiles W) /\
  (action_tiles_periodically (protocol_of (fst (ReduceToActionTiles W))) <-> wang_tiles_periodically W).
Proof.
  intros W OK. destruct (plain_reduction W) as (m & doll & RE & _ & D & CO). set (acts := fst (ReduceToActionTiles W)) in *. split; split.
  - intros (X & H). apply (grid_of_acts enc1 dec1 (plain W) m acts RE (plain_good W OK)) in H. apply plain_wang in H. destruct H as (i & j & H). eexists. exact H.
  - intros (T & H). apply paint2_grid in H. apply (acts_of_grid enc1 (plain W) m acts RE CO) in H. eexists. exact H.
  - intros (X & k & l & H & RP). apply (grid_of_acts enc1 dec1 (plain W) m acts RE (plain_good W OK)) in H.
    assert (RP' : repeats (fun i j => colour_of dec1 m (X i j)) k l). { destruct RP as (R1 & R2 & R3 & R4). split; [exact R1|split; [exact R2|split; intros; [rewrite R3|rewrite R4]; reflexivity]]. }
    apply plain_wang in H. destruct H as (i & j & H). do 3 eexists. split; [exact H|].
    apply read_repeats. exact RP'.
  - intros (T & k & l & H & RP). apply paint2_grid in H. apply (acts_of_grid enc1 (plain W) m acts RE CO) in H. do 3 eexists. split; [exact H|].
    apply paint2_repeats in RP. destruct RP as (R1 & R2 & R3 & R4). split; [exact R1|split; [exact R2|split; intros; [rewrite R3|rewrite R4]; reflexivity]].
Qed.
Print Assumptions C86_action_tiles_tile_what_the_wang_tiles_do.

Theorem C86_commutative_tiles_tile_what_the_wang_tiles_do :
  forall W,
  (action_tiles (protocol_of (fst (ReduceToCommutativeTiles W))) <-> wang_tiles W) /\
  (action_tiles_periodically (protocol_of (fst (ReduceToCommutativeTiles W))) <-> wang_tiles_periodically W).
Proof.
  intros W. destruct (both_reduction W) as (m & doll & RE & _ & D & CO). set (acts := fst (ReduceToCommutativeTiles W)) in *. split; split.
  - intros (X & H). apply (grid_of_acts enc2 dec2 (both W) m acts RE (both_good W)) in H. apply both_found in H. destruct H as [(i & j & H)|(i & j & H)]; eexists; exact H.
  - intros (T & H). apply paint3_grid in H. apply (acts_of_grid enc2 (both W) m acts RE CO) in H. eexists. exact H.
  - intros (X & k & l & H & RP). apply (grid_of_acts enc2 dec2 (both W) m acts RE (both_good W)) in H.
    assert (RP' : repeats (fun i j => colour_of dec2 m (X i j)) k l). { destruct RP as (R1 & R2 & R3 & R4). split; [exact R1|split; [exact R2|split; intros; [rewrite R3|rewrite R4]; reflexivity]]. }
    apply both_found in H. destruct H as [(i & j & H)|(i & j & H)]; do 3 eexists; (split; [exact H|]); apply read_repeats; [|apply (transpose_repeats (fun i j => colour_of dec2 m (X i j)))]; exact RP'.
  - intros (T & k & l & H & RP). apply paint3_grid in H. apply (acts_of_grid enc2 (both W) m acts RE CO) in H. do 3 eexists. split; [exact H|].
    apply paint3_repeats in RP. destruct RP as (R1 & R2 & R3 & R4). split; [exact R1|split; [exact R2|split; intros; [rewrite R3|rewrite R4]; reflexivity]].
Qed.
Print Assumptions C86_commutative_tiles_tile_what_the_wang_tiles_do.

Lemma livelock_of_tiles : forall acts M, 1 <= M -> (forall a b c, In (a, b, c) acts -> a < M /\ b < M /\ c < M) ->
  deterministic (protocol_of acts) -> self_disabling (protocol_of acts) ->
  ((exists N, livelock_on (table_protocol M (ppgfun_of_acts acts M)) M N) <-> action_tiles_periodically (protocol_of acts)).
Proof.
  intros acts M MP RG DT SD.
  assert (F : Forall (UniProofs.act_range M) acts). { apply Forall_forall. intros ((a & b) & c) I. apply RG in I. exact I. }
  pose proof (ppgfun_of_acts_spec M acts ltac:(lia) F DT) as SP. pose proof (ppgfun_of_acts_ok M acts ltac:(lia) F) as OK.
  assert (SD' : self_disabling (table_protocol M (ppgfun_of_acts acts M))). { intros a b c d H1 H2. apply SP in H1, H2. exact (SD a b c d H1 H2). }
  split.
  - intros (N & L). destruct (table_torus M _ N OK SD' L) as (X & m & n & H1 & H2 & H3 & H4 & H5). exists X, m, n. split; [intros i j; apply SP; auto|]. split; auto.
  - intros (X & m & n & H & H1 & H2 & H3 & H4). apply (proj2 (C55_livelock_iff_block _ M OK SD')). apply (torus_block _ X m n). split; auto. split; auto. split; auto. split; auto. intros i j. apply SP. apply H.
Qed.

(** The protocol that the program writes (-id) has a livelock on a ring of some size exactly when the
    Wang tiles tile periodically: the protocol of an aperiodic tile set is livelock-free on every ring. *)
Theorem C86_livelock_iff_periodic_tiling :
  forall W M acts, colours_ok W -> NW_deterministic W ->
  (acts, M) = ReduceToActionTiles W \/ (acts, M) = ReduceToCommutativeTiles W ->
  (exists N, livelock_on (table_protocol M (ppgfun_of_acts acts M)) M N) <-> wang_tiles_periodically W.
Proof.
  intros W M acts OK ND R.
  assert (D : deterministic (protocol_of acts) /\ self_disabling (protocol_of acts) /\ (action_tiles_periodically (protocol_of acts) <-> wang_tiles_periodically W)).
  { destruct (C86_actions_disable_themselves W) as (P1 & P2 & _). destruct (C86_constraint_check_is_exact W) as (K1 & K2).
    destruct R as [R|R].
    - assert (E : acts = fst (ReduceToActionTiles W)) by (rewrite <- R; auto). rewrite E. split; [|split; [apply P1; auto|apply C86_action_tiles_tile_what_the_wang_tiles_do; auto]].
      apply (K1 OK) in ND. apply check_constraints_spec in ND; [tauto|]. apply (C86_actions_are_in_the_domain W (ReduceToActionTiles W)). auto.
    - assert (E : acts = fst (ReduceToCommutativeTiles W)) by (rewrite <- R; auto). rewrite E. split; [|split; [auto|apply C86_commutative_tiles_tile_what_the_wang_tiles_do]].
      apply K2 in ND. apply check_constraints_spec in ND; [tauto|]. apply (C86_actions_are_in_the_domain W (ReduceToCommutativeTiles W)). auto. }
  destruct D as (D1 & D2 & D3). destruct (C86_actions_are_in_the_domain W (acts, M) R) as (M1 & _ & M2). rewrite (livelock_of_tiles acts M M1 M2 D1 D2). auto.
Qed.
Print Assumptions C86_livelock_iff_periodic_tiling.

(** The stored protocol is the reduction of the stored tiles, action by action. *)
Theorem C86_stored_protocol_is_the_reduction :
  ReduceToActionTiles TileSet = tilings_and_patterns_aperiodic_uniring.
Proof. vm_compute. reflexivity. Qed.
Print Assumptions C86_stored_protocol_is_the_reduction.

(** Finding: the colour UINT_MAX is not free.  A tile with it below and on the right is confused with the
    separating symbol, and a deterministic set is refused. *)
Theorem C86_reserved_colour_refuted :
  exists W, NW_deterministic W /\ check_constraints (fst (ReduceToActionTiles W)) false = false.
Proof.
  exists [(1, 1, UINT_MAX, UINT_MAX)]%N. split; [intros t u [<-|[]] [<-|[]]; auto|vm_compute; auto].
Qed.
Print Assumptions C86_reserved_colour_refuted.

(** The tiles of the program, and one tile that tiles periodically. *)
Lemma TileSet_NW : NW_deterministic TileSet.
Proof.
  assert (B : forallb (fun t => forallb (fun u => implb ((west t =? west u) && (north t =? north u))%N ((south t =? south u) && (east t =? east u))%N) TileSet) TileSet = true) by (vm_compute; auto).
  rewrite forallb_forall in B. intros t u I I' E1 E2. specialize (B t I). rewrite forallb_forall in B. specialize (B u I'). rewrite E1, E2, !N.eqb_refl in B. cbn [implb andb] in B.
  apply andb_true_iff in B. rewrite !N.eqb_eq in B. destruct t as (((? & ?) & ?) & ?), u as (((? & ?) & ?) & ?). cbn in *. destruct B. congruence.
Qed.
Example C86_example :
  colours_ok TileSet /\ NW_deterministic TileSet /\ snd (ReduceToActionTiles TileSet) = 29 /\ snd (ReduceToCommutativeTiles TileSet) = 44 /\
  length (fst (ReduceToCommutativeTiles TileSet)) = 178 /\
  check_constraints (fst (ReduceToActionTiles TileSet)) false = true /\ check_constraints (fst (ReduceToCommutativeTiles TileSet)) true = true /\
  wang_tiles_periodically [(1, 2, 2, 1)]%N /\ colours_ok [(1, 2, 2, 1)]%N /\ NW_deterministic [(1, 2, 2, 1)]%N /\
  livelock_semick 6 (ppgfun_of_acts (fst (ReduceToActionTiles [(1, 2, 2, 1)]%N)) 4) 4 <> RMay.
Proof.
  split.
  { intros t I. assert (B : forallb (fun t => (west t <? UINT_MAX) && (north t <? UINT_MAX) && (south t <? UINT_MAX) && (east t <? UINT_MAX))%N TileSet = true) by (vm_compute; auto).
    rewrite forallb_forall in B. specialize (B t I). rewrite !andb_true_iff, !N.ltb_lt in B. tauto. }
  split; [apply TileSet_NW|]. split; [vm_compute; auto|]. split; [vm_compute; auto|]. split; [vm_compute; auto|]. split; [vm_compute; auto|]. split; [vm_compute; auto|].
  split; [exists (fun _ _ => (1, 2, 2, 1)%N), 1, 1; split; [intros i j; cbn; auto|split; auto]|].
  split; [intros t [<-|[]]; vm_compute; auto|]. split; [intros t u [<-|[]] [<-|[]]; auto|vm_compute; discriminate].
Qed.
