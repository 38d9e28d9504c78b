(** Properties C09 and C11-C13: guided check, cycle search, tile digraphs, adjacency list. *)
From Coq Require Import List Arith Lia Bool.
From Verif Require Import FinLib UniModel UniSpec UniProofs LivelockModel LivelockSpec
  LivelockProofs LivelockProofs2 TileModel TileSpec TileProofs TileProofs2 AdjModel AdjProofs.
Import ListNotations.

(** ** C09 *)
Theorem C09_guided_hit_is_a_livelock :
  forall t M acts cs limit ids, table_ok M t ->
    closed_chain (table_protocol M t) acts cs ->
    guided_livelock_ck t M acts limit = Some ids ->
    livelocks_on_large_rings (table_protocol M t) M /\
    forall i, In i ids -> exists a b c, table_protocol M t a b c /\ i = (a * M + b) * M + c.
Proof.
  intros t M acts cs limit ids Hok HC H.
  destruct (guided_sound t M Hok acts limit ids cs HC H) as [H1 H2]. split; auto.
  intros i Hi. rewrite Forall_forall in H2. apply H2; auto.
Qed.
Print Assumptions C09_guided_hit_is_a_livelock.

Example C09_example :
  table_ok 3 [1; 3; 3; 3; 2; 3; 3; 3; 0] /\
  closed_chain (table_protocol 3 [1; 3; 3; 3; 2; 3; 3; 3; 0]) [(0, 0); (1, 1); (2, 2)] [1; 2; 0] /\
  exists ids, guided_livelock_ck [1; 3; 3; 3; 2; 3; 3; 3; 0] 3 [(0, 0); (1, 1); (2, 2)] 4 = Some ids.
Proof.
  split; [repeat constructor|]. split; [|vm_compute; eauto].
  split; [reflexivity|]. split; [discriminate|].
  intros [|[|[|j]]] Hj; simpl in *; try lia; repeat split; auto.
Qed.

(** The returned set of actions does not always suffice for a livelock: the
    actions of the last row (the one that matches) are not recorded.  The
    generator prunes its search using this set. *)
Theorem C09_recorded_set_sufficient_refuted :
  exists t M acts cs limit ids, table_ok M t /\ self_disabling (table_protocol M t) /\
    closed_chain (table_protocol M t) acts cs /\
    guided_livelock_ck t M acts limit = Some ids /\
    livelock_free (fun a b c => table_protocol M t a b c /\ In ((a * M + b) * M + c) ids) M.
Proof.
  exists [2; 0; 1; 2], 2, [(0, 1)], [0], 5, [2].
  split; [repeat constructor|]. split.
  { intros a b c d (Ha & Hb & Hc & E1) (_ & _ & Hd & E2).
    destruct a as [|[|a]]; destruct b as [|[|b]]; simpl in E1; try lia;
    injection E1 as <-; try lia; simpl in E2; try discriminate; injection E2 as <-; lia. }
  split.
  { split; [reflexivity|]. split; [discriminate|].
    intros [|j] Hj; simpl in *; try lia; repeat split; auto. }
  split; [vm_compute; reflexivity|].
  intros N HL. apply (livelock_semick_nil 3 [2; 0; 2; 2] 2) with (N := N).
  - repeat constructor.
  - intros a b c d (Ha & Hb & Hc & E1) (_ & _ & Hd & E2).
    destruct a as [|[|a]]; destruct b as [|[|b]]; simpl in E1; try lia;
    injection E1 as <-; try lia; simpl in E2; try discriminate; injection E2 as <-; lia.
  - vm_compute. reflexivity.
  - eapply livelock_on_ext; [|exact HL]. intros a b c [(Ha & Hb & Hc & E) [HI|[]]].
    destruct a as [|[|a]]; destruct b as [|[|b]]; simpl in E; try lia;
    injection E as <-; simpl in HI; try lia; repeat split; auto.
Qed.
Print Assumptions C09_recorded_set_sufficient_refuted.

(** ** C11 *)
Theorem C11_cycle_search_exact :
  forall n init (adj : nat -> list nat),
    (forall x y, In y (adj x) -> y < n) ->
    exists stack, cycle_ck_from n init adj = Some stack /\
      (stack <> [] <-> path (fun x y => In y (adj x)) init init) /\
      (stack <> [] ->
         let nodes := map fst (rev stack) in
         chain (fun x y => In y (adj x)) nodes /\ hd 0 nodes = init /\
         In init (adj (last nodes 0))).
Proof.
  intros n init adj Hadj. destruct (cycle_ck_spec n init adj Hadj) as (stack & H1 & H2 & H3).
  exists stack. auto.
Qed.
Print Assumptions C11_cycle_search_exact.

Example C11_example :
  let adj := fun x => nth x [[1; 2]; [3]; [3; 0]; [1]] [] in
  cycle_ck_from 4 0 adj = Some [(2, 2); (0, 2)] /\ cycle_ck_from 4 3 adj = Some [(1, 1); (3, 1)].
Proof. split; reflexivity. Qed.

(** ** C12 *)
Theorem C12_tile_digraph_exact :
  forall M set t u v, length set = M * M * M -> table_ok M t ->
    (In (u, v) (tile_arcs set t M) <->
     exists a b c d e f g, u = (a * M + b) * M + d /\ v = (c * M + e) * M + g /\
       in_set M set a b c /\ (exists x, in_set M set x c d) /\ (exists y, in_set M set b y e) /\
       table_protocol M t c e f /\ table_protocol M t d f g).
Proof. exact tile_arcs_spec. Qed.
Print Assumptions C12_tile_digraph_exact.

Theorem C12_overapprox_digraph_exact :
  forall M set u v, length set = M * M * M ->
    (In (u, v) (overapprox_tile_arcs set M) <->
     exists a b c d e f g, u = (a * M + b) * M + d /\ v = (c * M + e) * M + g /\
       in_set M set a b c /\ (exists x, in_set M set x c d) /\ (exists y, in_set M set b y e) /\
       in_set M set c e f /\ in_set M set d f g).
Proof. exact overapprox_arcs_spec. Qed.
Print Assumptions C12_overapprox_digraph_exact.

Lemma in_set_table : forall M t a b c, M <> 0 -> length t = M * M ->
  (in_set M (actset_of_ppgfun t M) a b c <-> table_protocol M t a b c).
Proof.
  intros M t a b c HM L. unfold in_set. split.
  - intros (Ha & Hb & Hc & H). apply actset_of_ppgfun_spec in H; auto.
  - intros H. pose proof (table_protocol_range _ _ _ _ _ H) as (Ha & Hb & Hc).
    repeat split; auto. apply actset_of_ppgfun_spec; auto.
Qed.

Theorem C12_acyclic_is_livelock_free :
  forall M t, M <> 0 -> table_ok M t -> self_disabling (table_protocol M t) ->
    acyclic (fun u v => In (u, v) (tile_arcs (actset_of_ppgfun t M) t M)) ->
    livelock_free (table_protocol M t) M.
Proof.
  intros M t HM Hok SD HA. pose proof Hok as [L _].
  apply (tiles_acyclic M t (fun u v => In (u, v) (tile_arcs (actset_of_ppgfun t M) t M))); auto.
  intros a b c d e f g x y1 y2 P1 P2 P3 -> P4 P5.
  apply tile_arcs_spec; auto; [apply actset_of_ppgfun_length; auto|].
  exists a, b, c, d, e, f, g. split; [auto|]. split; [auto|].
  split; [apply in_set_table; auto|]. split; [exists x; apply in_set_table; auto|].
  split; [exists y1; apply in_set_table; auto|]. auto.
Qed.
Print Assumptions C12_acyclic_is_livelock_free.

(** The over-approximating digraph of a candidate set speaks for every
    deterministic self-disabling protocol made of its actions. *)
Theorem C12_overapprox_acyclic_is_livelock_free :
  forall M set, length set = M * M * M ->
    acyclic (fun u v => In (u, v) (overapprox_tile_arcs set M)) ->
    forall t, table_ok M t -> self_disabling (table_protocol M t) ->
      (forall a b c, table_protocol M t a b c -> in_set M set a b c) ->
      livelock_free (table_protocol M t) M.
Proof.
  intros M set L HA t Hok SD Hsub.
  apply (tiles_acyclic M t (fun u v => In (u, v) (overapprox_tile_arcs set M))); auto.
  intros a b c d e f g x y1 y2 P1 P2 P3 -> P4 P5.
  apply overapprox_arcs_spec; auto.
  exists a, b, c, d, e, f, g. split; [auto|]. split; [auto|]. split; [auto|].
  split; [eauto|]. split; [eauto|]. auto.
Qed.
Print Assumptions C12_overapprox_acyclic_is_livelock_free.

(** End to end: build the digraph in the adjacency list, search a cycle from
    every node; if none is found the protocol has no livelock. *)
Theorem C12_no_cycle_found_is_livelock_free :
  forall M t g, M <> 0 -> table_ok M t -> self_disabling (table_protocol M t) ->
    adj_build (M * M * M) (tile_arcs (actset_of_ppgfun t M) t M) = Some g ->
    (forall x, x < M * M * M -> cycle_ck_from (M * M * M) x (adj_arcs g) = Some []) ->
    livelock_free (table_protocol M t) M.
Proof.
  intros M t g HM Hok SD HB HC. apply C12_acyclic_is_livelock_free; auto.
  set (arcs := tile_arcs (actset_of_ppgfun t M) t M) in *.
  assert (HR : forall u v, In (u, v) arcs -> u < M * M * M /\ v < M * M * M).
  { intros u v H. apply tile_arcs_spec in H; auto; [|apply actset_of_ppgfun_length; destruct Hok; auto].
    destruct H as (a & b & c & d & e & f & g' & -> & -> & (? & ? & ? & _) & (? & (_ & _ & ? & _)) & _ & (? & ? & _) & (_ & _ & ? & _)).
    split; apply id3_lt; auto. }
  destruct (adj_build_spec (M * M * M) arcs) as (g' & E & HA & HN).
  { intros x y H. apply (HR x y H). }
  assert (g' = g) by congruence. subst g'.
  assert (HA' : forall x y, In y (adj_arcs g x) <-> In (x, y) arcs).
  { intros x y. destruct (lt_dec x (M * M * M)) as [Hx|Hx].
    - rewrite HA by auto. unfold arcs_of. rewrite in_map_iff. split.
      + intros ([x' y'] & <- & Hf). apply filter_In in Hf. destruct Hf as [Hf Ex].
        apply Nat.eqb_eq in Ex. simpl in *. subst x'. auto.
      + intros H. exists (x, y). split; auto. apply filter_In. split; auto. apply Nat.eqb_refl.
    - split; [|intros H; apply HR in H; lia].
      intros H. exfalso. destruct HN as [HN|(segs & degs & (_ & _ & _ & Ln & _) & Ls & _)]; [nia|].
      unfold adj_arcs, adj_degree in H. rewrite nth_overflow in H by lia. destruct H. }
  intros x Hp.
  assert (HX : forall a b, path (fun u v => In (u, v) arcs) a b -> a < M * M * M)
    by (intros a b Hab; destruct Hab as [a b Hxy|a b z Hxy _]; apply (HR a b Hxy)).
  pose proof (HX x x Hp) as Hx.
  destruct (C11_cycle_search_exact (M * M * M) x (adj_arcs g)) as (stack & E1 & E2 & _).
  { intros a b H. apply HA' in H. apply (HR a b H). }
  rewrite HC in E1 by auto. injection E1 as <-.
  apply E2; auto.
  assert (HP : forall a b, path (fun u v => In (u, v) arcs) a b -> path (fun a b => In b (adj_arcs g a)) a b).
  { intros a b Hab. induction Hab as [a b H|a b c H _ IH].
    - apply path_one. apply HA'. auto.
    - apply path_more with b; auto. apply HA'. auto. }
  apply HP; auto.
Qed.
Print Assumptions C12_no_cycle_found_is_livelock_free.

Example C12_example :
  let t := [1; 3; 1; 3; 2; 3; 3; 0; 3] in
  length (tile_arcs (actset_of_ppgfun t 3) t 3) = 2 /\
  match adj_build 27 (tile_arcs (actset_of_ppgfun t 3) t 3) with
  | Some g => forallb (fun x => match cycle_ck_from 27 x (adj_arcs g) with Some [] => true | _ => false end)
                (seq 0 27)
  | None => false
  end = true.
Proof. split; vm_compute; reflexivity. Qed.

(** A protocol whose digraph has arcs and cycles. *)
Example C12_example_cycle :
  let t := [1; 3; 3; 3; 2; 3; 3; 3; 0] in
  In (id_of3 0 0 2 3, id_of3 1 1 0 3) (tile_arcs (actset_of_ppgfun t 3) t 3).
Proof. vm_compute. auto. Qed.

(** ** C13 *)
(** Operations of a client after the graph has been built, and their meaning on
    plain lists of destinations. *)
Inductive adj_op := OpAdd (x y : nat) | OpDel (x y : nat) | OpDelFrom (x : nat) | OpFlush.

Definition run_op (g : adjlist) (o : adj_op) : option adjlist :=
  match o with
  | OpAdd x y => adj_add g x y
  | OpDel x y => Some (adj_del g x y)
  | OpDelFrom x => Some (adj_del_from g x)
  | OpFlush => Some (adj_flush g)
  end.
Fixpoint run_ops (g : adjlist) (ops : list adj_op) : option adjlist :=
  match ops with
  | [] => Some g
  | o :: ops' => match run_op g o with Some g' => run_ops g' ops' | None => None end
  end.

Definition spec_op (f : nat -> list nat) (o : adj_op) : nat -> list nat :=
  match o with
  | OpAdd x y => fun z => if z =? x then f z ++ [y] else f z
  | OpDel x y => fun z => if z =? x then filter (fun v => negb (v =? y)) (f z) else f z
  | OpDelFrom x => fun z => if z =? x then [] else f z
  | OpFlush => fun _ => []
  end.

(** Operations name existing nodes, and a node never gets more arcs than were
    counted for it in the first pass. *)
Definition legal_op (n : nat) (cap : nat -> nat) (f : nat -> list nat) (o : adj_op) : Prop :=
  match o with
  | OpAdd x _ => x < n /\ length (f x) < cap x
  | OpDel x _ => x < n
  | OpDelFrom x => x < n
  | OpFlush => True
  end.
Fixpoint legal_ops (n : nat) (cap : nat -> nat) (f : nat -> list nat) (ops : list adj_op) : Prop :=
  match ops with
  | [] => True
  | o :: ops' => legal_op n cap f o /\ legal_ops n cap (spec_op f o) ops'
  end.

Lemma run_op_rep : forall n cap g segs degs f o,
  rep g segs degs -> length segs = n -> (forall x, x < n -> length (nth x segs []) = cap x) ->
  (forall x, x < n -> adj_arcs g x = f x) -> legal_op n cap f o ->
  exists g' segs' degs', run_op g o = Some g' /\ rep g' segs' degs' /\ length segs' = n /\
    (forall x, x < n -> length (nth x segs' []) = cap x) /\
    (forall x, x < n -> adj_arcs g' x = spec_op f o x).
Proof.
  intros n cap g segs degs f o Hr Hn Hc Hf HL.
  assert (HD : forall x, x < n -> nth x degs 0 = length (f x)).
  { intros x Hx. rewrite <- Hf by auto. rewrite (rep_arcs g segs degs) by (auto; lia).
    rewrite firstn_length. destruct Hr as (_ & _ & _ & _ & H). destruct (H x ltac:(lia)). lia. }
  pose proof Hr as (_ & _ & Ld & _ & _).
  destruct o as [x y|x y|x|]; cbn [run_op legal_op] in *.
  - destruct HL as [Hx Hcap].
    destruct (add_pass [(x, y)] g segs degs Hr) as (g' & segs' & degs' & E & R & L' & S' & A').
    + intros a b [Heq|[]]. injection Heq as <- <-. lia.
    + intros z Hz. unfold count_from. rewrite arcs_of_one. rewrite Hc, HD by lia.
      destruct (Nat.eqb_spec x z) as [Ez|Nz]; [subst z; simpl; lia|]. simpl.
      rewrite <- Hc, <- HD by lia. destruct Hr as (_ & _ & _ & _ & H). destruct (H z Hz). lia.
    + cbn [adj_add_all] in E. destruct (adj_add g x y) as [g1|] eqn:E1; [|discriminate].
      injection E as ->. exists g', segs', degs'. split; auto. split; auto. split; [lia|].
      split; [intros z Hz; rewrite S'; auto|]. intros z Hz. rewrite A' by lia. rewrite Hf by auto.
      rewrite arcs_of_one. cbn [spec_op]. rewrite (Nat.eqb_sym z x). destruct (x =? z); auto.
      apply app_nil_r.
  - destruct (rep_del g segs degs x y Hr ltac:(lia)) as (segs' & degs' & R & L' & S' & O' & A').
    exists (adj_del g x y), segs', degs'. split; auto. split; auto. split; [lia|].
    split; [intros z Hz; rewrite S'; auto|]. intros z Hz. rewrite (rep_arcs _ _ _ z R) by lia.
    cbn [spec_op]. rewrite <- Hf by auto. rewrite (rep_arcs _ _ _ z Hr) by lia.
    destruct (Nat.eqb_spec z x) as [->|Nz]; auto.
  - pose proof (rep_set_zero g segs degs x Hr ltac:(lia)) as R.
    exists (adj_del_from g x), segs, (upd degs x 0). split; auto. split; auto. split; auto. split; auto.
    intros z Hz. rewrite (rep_arcs _ _ _ z R) by lia. cbn [spec_op].
    destruct (Nat.eqb_spec z x) as [->|Nz]; [rewrite nth_upd_same by lia; auto|].
    rewrite nth_upd_other by auto. rewrite <- Hf by auto. rewrite (rep_arcs _ _ _ z Hr) by lia. auto.
  - pose proof (rep_flush g segs degs Hr) as R.
    exists (adj_flush g), segs, (repeat 0 (length segs)). split; auto. split; auto. split; auto. split; auto.
    intros z Hz. rewrite (rep_arcs _ _ _ z R) by lia. rewrite nth_repeat'. auto.
Qed.

(** Building and then using the graph: no write outside the array, no failing
    assertion, and each node's arcs are what the plain lists say. *)
Theorem C13_adjacency_list_refines_lists :
  forall n arcs ops, n <> 0 ->
    (forall x y, In (x, y) arcs -> x < n) ->
    legal_ops n (fun x => length (arcs_of arcs x)) (arcs_of arcs) ops ->
    exists g0 g, adj_build n arcs = Some g0 /\
      (forall x, x < n -> adj_arcs g0 x = arcs_of arcs x) /\
      run_ops g0 ops = Some g /\
      forall x, x < n -> adj_arcs g x = fold_left spec_op ops (arcs_of arcs) x.
Proof.
  intros n arcs ops Hn Hl HL.
  destruct (adj_build_spec n arcs Hl) as (g0 & E & HA & [H0|(segs & degs & R & L & S)]); [congruence|].
  exists g0.
  assert (HG : forall ops g segs degs f, rep g segs degs -> length segs = n ->
    (forall x, x < n -> length (nth x segs []) = length (arcs_of arcs x)) ->
    (forall x, x < n -> adj_arcs g x = f x) ->
    legal_ops n (fun x => length (arcs_of arcs x)) f ops ->
    exists g', run_ops g ops = Some g' /\ forall x, x < n -> adj_arcs g' x = fold_left spec_op ops f x).
  { clear. induction ops as [|o ops IH]; intros g segs degs f R L S HF HL.
    - exists g. auto.
    - destruct HL as [HL1 HL2].
      destruct (run_op_rep n (fun x => length (arcs_of arcs x)) g segs degs f o R L S HF HL1)
        as (g1 & segs1 & degs1 & E1 & R1 & L1 & S1 & A1).
      destruct (IH g1 segs1 degs1 (spec_op f o) R1 L1 S1 A1 HL2) as (g' & E' & A').
      exists g'. cbn [run_ops]. rewrite E1. auto. }
  destruct (HG ops g0 segs degs (arcs_of arcs) R L S HA HL) as (g & E' & A').
  exists g. auto.
Qed.
Print Assumptions C13_adjacency_list_refines_lists.

Example C13_example :
  let arcs := [(1, 5); (0, 2); (1, 7); (1, 5); (2, 1)] in
  legal_ops 3 (fun x => length (arcs_of arcs x)) (arcs_of arcs) [OpDel 1 5; OpAdd 1 9; OpDelFrom 0] /\
  match adj_build 3 arcs with
  | Some g => map (adj_arcs g) (seq 0 3) = [[2]; [5; 7; 5]; [1]] /\
      match run_ops g [OpDel 1 5; OpAdd 1 9; OpDelFrom 0] with
      | Some g' => map (adj_arcs g') (seq 0 3) = [[]; [7; 9]; [1]]
      | None => False
      end
  | None => False
  end.
Proof. vm_compute. repeat split; auto; lia. Qed.
