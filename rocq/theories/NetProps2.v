(** C64: the order in which stored formulas are built matters. *)
From Coq Require Import List Arith Bool Lia.
From Verif Require Import FinLib Radix FmlaModel FmlaSpec FmlaProofs FmlaProofs2 FmlaProofs3 FmlaProofs4 FmlaProps
  ActModel ActSpec ActProofs ActProofs2 ActProofs4 ActProps NetModel NetSpec NetProofs NetProofs2 NetProofs3 NetProofs4 NetProps.
Import ListNotations.

(** One process with three interchangeable links, each with a written variable of three values. *)
Definition trit : access := {| a_type := WriteAccess; a_role := Direct; a_dom := 3 |}.
Definition star : network :=
  mkNetwork [3; 3; 3] [Direct; Direct; Direct] [declare [Symmetric 3 [trit]]] [plain 0 [0; 1; 2]].
Definition hub : process := plain 0 [0; 1; 2].

Lemma star_ok : net_ok star.
Proof.
  apply plain_ok.
  - repeat constructor.
  - intros k [<-|[]]. apply C40_declared_processes. intros n vs [H|[]]. injection H as <- <-. lia.
  - intros p [<-|[]]; eexists 0, _; (split; [reflexivity|]); (split; [cbn; lia|]); (split; [reflexivity|]).
    intros [|[|[|i]]] Hi; cbn in *; repeat split; lia.
Qed.

Lemma list3 : forall s, length s = 3 -> s = [nth 0 s 0; nth 1 s 0; nth 2 s 0].
Proof. intros [|x [|y [|z [|w s]]]] H; cbn in H; try lia. reflexivity. Qed.

Lemma star_move : forall v s t, length v = 6 -> firstn 3 v <> skipn 3 v -> ok (vdoms star) s -> ok (vdoms star) t ->
  (forall i, 3 <= i -> nth i v 0 < 3) ->
  (local_move star hub v s t <-> s = firstn 3 v /\ t = skipn 3 v).
Proof.
  intros v s t L NE S T B.
  assert (LS : length s = 3) by (apply (ok_length _ _ S)). assert (LT : length t = 3) by (apply (ok_length _ _ T)).
  destruct v as [|v0 [|v1 [|v2 [|v3 [|v4 [|v5 [|v6 v]]]]]]]; cbn in L; try lia. cbn [firstn skipn] in *.
  rewrite (list3 s LS) in *. rewrite (list3 t LT) in *. clear LS LT S T.
  generalize (nth 0 s 0) (nth 1 s 0) (nth 2 s 0) (nth 0 t 0) (nth 1 t 0) (nth 2 t 0). clear s t. intros s0 s1 s2 t0 t1 t2.
  set (s := [s0; s1; s2]). set (t := [t0; t1; t2]).
  pose proof (B 3 ltac:(lia)) as B3. pose proof (B 4 ltac:(lia)) as B4. pose proof (B 5 ltac:(lia)) as B5. cbn in B3, B4, B5.
  assert (VIS : forall i, i < 3 -> visible (access_at star hub i) /\ writable (access_at star hub i) /\ a_type (access_at star hub i) = WriteAccess /\ a_dom (access_at star hub i) = 3).
  { intros i Hi. do 3 (destruct i as [|i]; [cbn; unfold visible, writable; cbn; intuition discriminate|]). lia. }
  split.
  - intros [G A F _ _].
    assert (G' : forall i, i < 3 -> value s hub i = tested [v0; v1; v2; v3; v4; v5] i) by (intros i Hi; apply G; [exact Hi|apply VIS; auto]).
    assert (A' : forall i, i < 3 -> value t hub i = if assigned (its_kind star hub) [v0; v1; v2; v3; v4; v5] i =? 3 then value s hub i else assigned (its_kind star hub) [v0; v1; v2; v3; v4; v5] i).
    { intros i Hi. destruct (VIS i Hi) as (V1 & V2 & V3 & V4). rewrite A; auto. rewrite V4. reflexivity. rewrite V3. discriminate. }
    pose proof (G' 0 ltac:(lia)) as G0. pose proof (G' 1 ltac:(lia)) as G1. pose proof (G' 2 ltac:(lia)) as G2.
    pose proof (A' 0 ltac:(lia)) as A0. pose proof (A' 1 ltac:(lia)) as A1. pose proof (A' 2 ltac:(lia)) as A2.
    cbn [value vbl_at hub plain p_vbls nth] in *. unfold value, vbl_at, tested in *.
    change (assigned (its_kind star hub) [v0; v1; v2; v3; v4; v5] 0) with v3 in A0.
    change (assigned (its_kind star hub) [v0; v1; v2; v3; v4; v5] 1) with v4 in A1.
    change (assigned (its_kind star hub) [v0; v1; v2; v3; v4; v5] 2) with v5 in A2.
    destruct (Nat.eqb_spec v3 3); [lia|]. destruct (Nat.eqb_spec v4 3); [lia|]. destruct (Nat.eqb_spec v5 3); [lia|].
    cbn in G0, G1, G2, A0, A1, A2. unfold s, t. rewrite G0, G1, G2, A0, A1, A2. auto.
  - intros (ES & ET). injection ES as E0 E1 E2. injection ET as F0 F1 F2. split.
    + intros i Hi _. do 3 (destruct i as [|i]; [assumption|]). cbn in Hi. lia.
    + intros i Hi _ _. destruct i as [|[|[|i]]].
      * change (assigned (its_kind star hub) [v0; v1; v2; v3; v4; v5] 0) with v3. cbn [access_at]. destruct (Nat.eqb_spec v3 (a_dom (access_at star hub 0))) as [X|X]; [cbn in X; lia|exact F0].
      * change (assigned (its_kind star hub) [v0; v1; v2; v3; v4; v5] 1) with v4. destruct (Nat.eqb_spec v4 (a_dom (access_at star hub 1))) as [X|X]; [cbn in X; lia|exact F1].
      * change (assigned (its_kind star hub) [v0; v1; v2; v3; v4; v5] 2) with v5. destruct (Nat.eqb_spec v5 (a_dom (access_at star hub 2))) as [X|X]; [cbn in X; lia|exact F2].
      * cbn in Hi. lia.
    + intros x Hx NO _. exfalso. apply NO. exists x. cbn in Hx. destruct (VIS x Hx) as (_ & W & _). split; [exact Hx|]. split; auto.
      do 3 (destruct x as [|x]; [reflexivity|]). lia.
    + intros _ X. exfalso. apply NE. 
      pose proof (X 0 ltac:(cbn; lia) (proj1 (proj2 (VIS 0 ltac:(lia)))) (proj1 (VIS 0 ltac:(lia)))) as X0.
      pose proof (X 1 ltac:(cbn; lia) (proj1 (proj2 (VIS 1 ltac:(lia)))) (proj1 (VIS 1 ltac:(lia)))) as X1.
      pose proof (X 2 ltac:(cbn; lia) (proj1 (proj2 (VIS 2 ltac:(lia)))) (proj1 (VIS 2 ltac:(lia)))) as X2.
      change (v0 = v3) in X0. change (v1 = v4) in X1. change (v2 = v5) in X2. congruence.
    + intros (i & Hi & _ & X). exfalso. destruct (VIS i Hi) as (_ & _ & Y & _). congruence.
Qed.

(** Relations of the hub given by lists. *)
Definition listed (L : list (list nat * list nat)) (R : process -> list nat -> list nat -> Prop) : Prop :=
  (forall st, In st L -> ok (vdoms star) (fst st) /\ ok (vdoms star) (snd st)) /\
  forall s t, ok (vdoms star) s -> ok (vdoms star) t -> (R hub s t <-> In (s, t) L).
Definition keep_new (L : list (list nat * list nat)) : list (list nat * list nat) :=
  filter (fun st => negb (existsb (fun uv => if list_eq_dec Nat.eq_dec (snd uv) (fst st) then true else false) L)) L.

Lemma keep_new_in : forall L st, In st (keep_new L) <-> In st L /\ ~ exists u, In (u, fst st) L.
Proof.
  intros L st. unfold keep_new. rewrite filter_In, negb_true_iff, <- not_true_iff_false, existsb_exists. split; intros (H1 & H2); split; auto.
  - intros (u & Hu). apply H2. exists (u, fst st). split; auto. cbn [fst snd]. destruct (list_eq_dec Nat.eq_dec (fst st) (fst st)); auto.
  - intros ((u & w) & Hu & E). cbn [fst snd] in E. destruct (list_eq_dec Nat.eq_dec w (fst st)) as [->|]; [|discriminate]. apply H2. eauto.
Qed.

Lemma det_star : forall r, act_pc (act_of (kinds star) r) = 0 -> deterministic_kind star r.
Proof. intros r E x Hx. rewrite E in Hx. cbn in Hx. destruct Hx as [<-|[<-|[<-|[]]]]; discriminate. Qed.

Lemma grow_listed : forall L R r v, listed L R -> act_of (kinds star) r = {| act_pc := 0; vals := v |} ->
  length v = 6 -> firstn 3 v <> skipn 3 v -> ok (vdoms star) (firstn 3 v) -> ok (vdoms star) (skipn 3 v) ->
  listed (keep_new (L ++ [(firstn 3 v, skipn 3 v)])) (grow star R r).
Proof.
  intros L R r v (HL1 & HL2) E LV NE OF OS.
  set (L' := L ++ [(firstn 3 v, skipn 3 v)]).
  assert (B : forall i, 3 <= i -> nth i v 0 < 3).
  { intros i Hi. destruct (Nat.lt_ge_cases i 6) as [L6|G6]; [|rewrite nth_overflow by lia; lia].
    destruct v as [|v0 [|v1 [|v2 [|v3 [|v4 [|v5 [|v6 v]]]]]]]; cbn in LV; try lia. cbn [skipn] in OS.
    pose proof (ok_nth (vdoms star) _ 0 OS ltac:(cbn; lia)) as X0. pose proof (ok_nth (vdoms star) _ 1 OS ltac:(cbn; lia)) as X1.
    pose proof (ok_nth (vdoms star) _ 2 OS ltac:(cbn; lia)) as X2. cbn in X0, X1, X2.
    do 6 (destruct i as [|i]; [cbn; lia|]). lia. }
  assert (IN : forall s t, ok (vdoms star) s -> ok (vdoms star) t -> (R hub s t \/ move star r hub s t) <-> In (s, t) L').
  { intros s t S T. unfold L'. rewrite in_app_iff, <- HL2 by auto. unfold move. rewrite E. cbn [act_pc vals].
    rewrite star_move by auto. cbn. split; intros [H|H]; auto.
    - destruct H as (_ & -> & ->). auto.
    - destruct H as [H|[]]. injection H as <- <-. auto. }
  split.
  - intros st Hst. apply keep_new_in in Hst. destruct Hst as (Hst & _). unfold L' in Hst. apply in_app_iff in Hst.
    destruct Hst as [Hst|[<-|[]]]; auto.
  - intros s t S T. unfold grow. rewrite keep_new_in, IN by auto. cbn [fst].
    assert (D : deterministic_kind star r) by (apply det_star; rewrite E; reflexivity).
    split; intros (H1 & H2); split; auto.
    + intros (u & Hu). apply H2; auto. assert (U : ok (vdoms star) u).
      { unfold L' in Hu. apply in_app_iff in Hu. destruct Hu as [Hu|[Hu|[]]]; [apply (HL1 _ Hu)|injection Hu as <- _; auto]. }
      exists u. split; auto. apply IN; auto.
    + intros _ (u & U & Hu). apply H2. exists u. apply IN; auto.
Qed.

Lemma star_trace : listed [([2; 0; 1], [0; 1; 2]); ([2; 1; 0], [0; 2; 1])] (trace star (represented_actions (kinds star) 150)).
Proof.
  assert (E : represented_actions (kinds star) 150 = [150; 200; 318; 424; 518; 574]) by (vm_compute; reflexivity).
  rewrite E. unfold trace. cbn [fold_left].
  assert (L0 : listed [] (fun _ _ _ => False)) by (split; [intros st []|intros; cbn; tauto]).
  Ltac grow1 H r v L' :=
    let X := fresh in
    pose proof (grow_listed _ _ r v H ltac:(vm_compute; reflexivity) eq_refl ltac:(discriminate) ltac:(repeat constructor) ltac:(repeat constructor)) as X;
    let E := fresh in
    match type of X with listed ?L _ => assert (E : L = L') by (vm_compute; reflexivity) end;
    rewrite E in X; clear E H; rename X into H.
  grow1 L0 150 [0; 1; 2; 1; 2; 0] [([0; 1; 2], [1; 2; 0])].
  grow1 L0 200 [0; 2; 1; 1; 0; 2] [([0; 1; 2], [1; 2; 0]); ([0; 2; 1], [1; 0; 2])].
  grow1 L0 318 [1; 0; 2; 2; 1; 0] [([0; 1; 2], [1; 2; 0]); ([0; 2; 1], [1; 0; 2])].
  grow1 L0 424 [1; 2; 0; 2; 0; 1] [([0; 1; 2], [1; 2; 0]); ([0; 2; 1], [1; 0; 2])].
  grow1 L0 518 [2; 0; 1; 0; 1; 2] [([0; 2; 1], [1; 0; 2]); ([2; 0; 1], [0; 1; 2])].
  grow1 L0 574 [2; 1; 0; 0; 2; 1] [([2; 0; 1], [0; 1; 2]); ([2; 1; 0], [0; 2; 1])].
  exact L0.
Qed.

(** Refuted: "stored formulas hold the same steps as those made on demand".  The action that turns
    the values 0, 1, 2 of the links into 1, 2, 0 can be repeated: made on demand it has no step at
    all; the stored formula has some, depending on the order in which variants were added. *)
Theorem C64_modes_agree_refuted : exists N a j s t,
  net_ok N /\ a < actions_in (kinds N) /\ representative_action_index (kinds N) a = Some a /\ j < length (pcs N) /\
  ok (vdoms N) s /\ ok (vdoms N) t /\
  process_step N (action_xfmlae N false a) j s t /\
  forall s t, ok (vdoms N) s -> ok (vdoms N) t -> ~ process_step N (action_xfmlae N true a) j s t.
Proof.
  assert (A : 150 < actions_in (kinds star)) by (apply Nat.ltb_lt; vm_compute; reflexivity).
  assert (R : representative_action_index (kinds star) 150 = Some 150) by (vm_compute; reflexivity).
  exists star, 150, 0, [2; 0; 1], [0; 1; 2]. split; [apply star_ok|]. split; auto. split; auto. split; [cbn; lia|].
  split; [repeat constructor|]. split; [repeat constructor|]. split.
  - assert (S0 : ok (vdoms star) [2; 0; 1]) by (repeat constructor). assert (T0 : ok (vdoms star) [0; 1; 2]) by (repeat constructor).
    pose proof (denotes_process star _ _ (cached_trace star star_ok 150 A) 0 hub _ _ eq_refl S0 T0) as D.
    destruct star_trace as (_ & ST). specialize (ST _ _ S0 T0). unfold action_xfmlae. rewrite D, ST. cbn [In]. auto.
  - intros s t S T H. apply (C64_lightweight_exact star 150 0 hub) in H; auto using star_ok.
    destruct H as (M & Q). apply Q; [apply det_star; vm_compute; reflexivity|]. clear Q.
    assert (MV : forall r v u w, In r [150; 200; 318; 424; 518; 574] -> act_of (kinds star) r = {| act_pc := 0; vals := v |} ->
       length v = 6 -> firstn 3 v <> skipn 3 v -> (forall i, 3 <= i -> nth i v 0 < 3) -> ok (vdoms star) u -> ok (vdoms star) w -> u = firstn 3 v -> w = skipn 3 v ->
       class_move star 150 hub u w).
    { intros r v u w Hr E LV NE B U W -> ->. apply (class_iff star star_ok 150 A R). exists r. split.
      - replace (represented_actions (kinds star) 150) with [150; 200; 318; 424; 518; 574] by (vm_compute; reflexivity). auto.
      - unfold move. rewrite E. split; [reflexivity|]. apply star_move; auto. }
    apply (class_iff star star_ok 150 A R) in M. destruct M as (r & Hr & (_ & M)).
    replace (represented_actions (kinds star) 150) with [150; 200; 318; 424; 518; 574] in Hr by (vm_compute; reflexivity).
    assert (BD : forall x0 x1 x2 x3 x4 x5 i, x3 < 3 -> x4 < 3 -> x5 < 3 -> 3 <= i -> nth i [x0; x1; x2; x3; x4; x5] 0 < 3).
    { intros x0 x1 x2 x3 x4 x5 i H3 H4 H5 Hi. do 6 (destruct i as [|i]; [cbn; lia|]). destruct i; cbn; lia. }
    Ltac fin M MV BD V r0 v0 :=
      apply star_move in M; [|reflexivity|discriminate|assumption|assumption|intros; apply BD; lia];
      destruct M as (-> & _); exists (firstn 3 v0); split; [repeat constructor|];
      apply (MV r0 v0); [cbn; tauto|vm_compute; reflexivity|reflexivity|discriminate|intros; apply BD; lia|repeat constructor|repeat constructor|reflexivity|reflexivity].
    destruct Hr as [<-|[<-|[<-|[<-|[<-|[<-|[]]]]]]].
    + change (vals (act_of (kinds star) 150)) with [0; 1; 2; 1; 2; 0] in M. fin M MV BD V 518 [2; 0; 1; 0; 1; 2].
    + change (vals (act_of (kinds star) 200)) with [0; 2; 1; 1; 0; 2] in M. fin M MV BD V 574 [2; 1; 0; 0; 2; 1].
    + change (vals (act_of (kinds star) 318)) with [1; 0; 2; 2; 1; 0] in M. fin M MV BD V 200 [0; 2; 1; 1; 0; 2].
    + change (vals (act_of (kinds star) 424)) with [1; 2; 0; 2; 0; 1] in M. fin M MV BD V 150 [0; 1; 2; 1; 2; 0].
    + change (vals (act_of (kinds star) 518)) with [2; 0; 1; 0; 1; 2] in M. fin M MV BD V 424 [1; 2; 0; 2; 0; 1].
    + change (vals (act_of (kinds star) 574)) with [2; 1; 0; 0; 2; 1] in M. fin M MV BD V 318 [1; 0; 2; 2; 1; 0].
Qed.
Print Assumptions C64_modes_agree_refuted.
