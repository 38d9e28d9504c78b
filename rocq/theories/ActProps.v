(** Theorems about actions: C39 (numbering), C40 (representatives), C43 (coexistence). *)
From Coq Require Import List Arith Bool Lia.
From Verif Require Import FinLib Radix ActModel ActSpec ActProofs ActProofs2 ActProofs3 ActProofs4.
Import ListNotations.

(** * A sample network
    A process that reads one variable and, on two symmetric links, reads an [x] and writes a [y];
    and a process with an effect variable. *)
Definition rd (d : nat) : access := {| a_type := ReadAccess; a_role := Direct; a_dom := d |}.
Definition wr (d : nat) : access := {| a_type := WriteAccess; a_role := Direct; a_dom := d |}.
Definition eff (d : nat) : access := {| a_type := EffectAccess; a_role := Direct; a_dom := d |}.
Definition linked : pcsymm := declare [Plain (rd 2); Symmetric 3 [rd 2; wr 3]].
Definition plain_pc : pcsymm := declare [Plain (rd 3); Plain (wr 3); Plain (eff 2)].
Definition sample_net : list pcsymm := [plain_pc; linked].

Example sample_shape :
  accs linked = [rd 2; rd 2; rd 2; rd 2; wr 3; wr 3; wr 3] /\
  symms linked = [{| nlinks := 3; rows := [[1; 2; 3]; [4; 5; 6]] |}] /\
  actions_in sample_net = 3 * 3 * 1 * 3 * 3 + 2 * 8 * 27 * 27.
Proof. split; [reflexivity|]. split; [reflexivity|]. vm_compute. reflexivity. Qed.

(** * C39 *)
(** Every number below the number of actions stands for an action of the network, whose own number
    it is. *)
Theorem C39_decode : forall net i, i < actions_in net ->
  let a := act_of net i in
  act_pc a < length net /\ action_values (nth (act_pc a) net pc0) (vals a) /\ id_of net a = i.
Proof.
  intros net i H a. destruct (act_of_spec net i H) as (H1 & H2 & H3). split; auto. split; auto.
  apply valid_spec. exact H2.
Qed.
Print Assumptions C39_decode.

(** Every action of the network has a number below the number of actions, which decodes to it. *)
Theorem C39_encode : forall net a, act_pc a < length net ->
  action_values (nth (act_pc a) net pc0) (vals a) ->
  id_of net a < actions_in net /\ act_of net (id_of net a) = a.
Proof.
  intros net a H1 H2. apply valid_spec in H2. destruct (id_of_spec net a H1 H2) as (A & B & _). auto.
Qed.
Print Assumptions C39_encode.

(** The total announced by the network is the number of its actions. *)
Theorem C39_total : forall net, total_acts net = actions_in net.
Proof. exact total_acts_eq. Qed.
Print Assumptions C39_total.

Lemma pre_sum_firstn_S : forall net k, k < length net ->
  pre_sum (firstn (S k) net) = pre_sum (firstn k net) + pre_domsz (nth k net pc0).
Proof.
  induction net as [|pc net IH]; intros k H; cbn in H; [lia|].
  destruct k as [|k].
  - unfold pre_sum. cbn. lia.
  - cbn [firstn nth]. specialize (IH k). unfold pre_sum in *. cbn [map fold_right firstn] in *.
    rewrite IH by lia. lia.
Qed.

Lemma pre_sum_mono : forall net i j, i <= j -> pre_sum (firstn i net) <= pre_sum (firstn j net).
Proof.
  intros net i j H. replace i with (Nat.min i j) by lia. rewrite <- firstn_firstn.
  rewrite <- (firstn_skipn i (firstn j net)) at 2. unfold pre_sum. rewrite map_app.
  generalize (map pre_domsz (firstn i (firstn j net))) as l. intros l.
  induction l; cbn; [lia|]. unfold pre_sum in *. lia.
Qed.

Lemma index_inj : forall u v D, Forall2 lt u D -> Forall2 lt v D ->
  index_of_state u D = index_of_state v D -> u = v.
Proof.
  intros u v D Hu Hv E. rewrite <- (state_of_index_of_state u D Hu), <- (state_of_index_of_state v D Hv).
  congruence.
Qed.

Lemma valid_split : forall pc v, valid pc v ->
  Forall2 lt (firstn (nr pc) v) (rdoms pc) /\ Forall2 lt (skipn (nr pc) v) (wdoms pc).
Proof.
  intros pc v V. unfold valid, doms in V. apply Forall2_lt_app_split in V.
  unfold rdoms in V at 1 3. rewrite map_length in V. exact V.
Qed.

Lemma nth_firstn_lt : forall A (l : list A) n i d, i < n -> nth i (firstn n l) d = nth i l d.
Proof.
  induction l as [|x l IH]; intros n i d H; destruct n as [|n]; [lia|destruct i; reflexivity|lia|].
  destruct i as [|i]; cbn; auto. apply IH. lia.
Qed.

(** The guard number of an action identifies its kind of process and the values it tests for. *)
Theorem C39_guard_number : forall net i j, i < actions_in net -> j < actions_in net ->
  let a := act_of net i in let b := act_of net j in
  action_pre_index net i = action_pre_index net j <->
  act_pc a = act_pc b /\
  forall x, x < length (accs (nth (act_pc a) net pc0)) -> tested (vals a) x = tested (vals b) x.
Proof.
  intros net i j Hi Hj a b.
  destruct (pre_img_index_spec net i Hi) as (P1 & _ & P3).
  destruct (pre_img_index_spec net j Hj) as (Q1 & _ & Q3). cbv zeta in *. fold a in P1, P3. fold b in Q1, Q3.
  destruct (act_of_spec net i Hi) as (A1 & A2 & _), (act_of_spec net j Hj) as (B1 & B2 & _).
  fold a in A1, A2. fold b in B1, B2. rewrite P1, Q1. split.
  - intros E.
    assert (EP : act_pc a = act_pc b).
    { destruct (Nat.lt_trichotomy (act_pc a) (act_pc b)) as [L|[L|L]]; auto; exfalso.
      - pose proof (pre_sum_mono net (S (act_pc a)) (act_pc b) L) as M.
        rewrite pre_sum_firstn_S in M by exact A1. lia.
      - pose proof (pre_sum_mono net (S (act_pc b)) (act_pc a) L) as M.
        rewrite pre_sum_firstn_S in M by exact B1. lia. }
    split; auto. rewrite <- EP in *.
    assert (EF : firstn (nr (nth (act_pc a) net pc0)) (vals a) = firstn (nr (nth (act_pc a) net pc0)) (vals b)).
    { apply index_inj with (D := rdoms (nth (act_pc a) net pc0)); try apply valid_split; auto. lia. }
    intros x Hx. unfold tested. fold (nr (nth (act_pc a) net pc0)) in Hx.
    rewrite <- (firstn_skipn (nr (nth (act_pc a) net pc0)) (vals a)).
    rewrite <- (firstn_skipn (nr (nth (act_pc a) net pc0)) (vals b)).
    pose proof (valid_length _ _ A2) as LA. pose proof (valid_length _ _ B2) as LB.
    rewrite !app_nth1 by (rewrite firstn_length; lia). rewrite EF. reflexivity.
  - intros [EP E]. rewrite <- EP in *. f_equal. f_equal.
    pose proof (valid_length _ _ A2) as LA. pose proof (valid_length _ _ B2) as LB.
    apply list_ext_nth with (d := 0); [rewrite !firstn_length; lia|].
    intros x Hx. rewrite firstn_length in Hx.
    rewrite !nth_firstn_lt by lia. apply E. unfold nr in Hx. lia.
Qed.
Print Assumptions C39_guard_number.

(** Within a kind of process, the assignment number identifies the assigned values. *)
Theorem C39_assignment_number : forall net i j, i < actions_in net -> j < actions_in net ->
  let a := act_of net i in let b := act_of net j in
  act_pc a = act_pc b ->
  action_img_index net i = action_img_index net j <->
  forall x, x < length (accs (nth (act_pc a) net pc0)) -> writable (nth x (accs (nth (act_pc a) net pc0)) acc0) ->
    assigned (nth (act_pc a) net pc0) (vals a) x = assigned (nth (act_pc a) net pc0) (vals b) x.
Proof.
  intros net i j Hi Hj a b EP.
  destruct (pre_img_index_spec net i Hi) as (_ & P2 & _).
  destruct (pre_img_index_spec net j Hj) as (_ & Q2 & _). cbv zeta in *. fold a in P2. fold b in Q2.
  destruct (act_of_spec net i Hi) as (A1 & A2 & _), (act_of_spec net j Hj) as (B1 & B2 & _).
  fold a in A1, A2. fold b in B1, B2. rewrite P2, Q2. rewrite <- EP in *.
  set (pc := nth (act_pc a) net pc0) in *.
  pose proof (valid_length _ _ A2) as LA. pose proof (valid_length _ _ B2) as LB.
  assert (NS : forall v w, length v = nr pc + nw pc -> nth w (skipn (nr pc) v) 0 = nth (nr pc + w) v 0).
  { intros v w Lv. rewrite <- (firstn_skipn (nr pc) v) at 2.
    rewrite app_nth2; rewrite firstn_length; [f_equal; lia|lia]. }
  split.
  - intros E.
    assert (ES : skipn (nr pc) (vals a) = skipn (nr pc) (vals b)).
    { apply index_inj with (D := wdoms pc); try apply valid_split; auto. }
    intros x Hx W. unfold assigned. fold (nr pc). rewrite <- !NS by auto. rewrite ES. reflexivity.
  - intros E. f_equal. apply list_ext_nth with (d := 0); [rewrite !skipn_length; lia|].
    intros w Hw. rewrite skipn_length in Hw. rewrite !NS by auto.
    destruct (wmap_nth pc w) as (M1 & M2 & M3); [lia|]. rewrite <- M3.
    apply (E (nth w (wmap pc) 0)); auto. apply writable_ck. exact M2.
Qed.
Print Assumptions C39_assignment_number.

Example C39_example :
  let a := act_of sample_net 700 in
  700 < actions_in sample_net /\ act_pc a = 1 /\ vals a = [0; 0; 0; 0; 2; 1; 1; 2; 2; 1] /\
  action_pre_index sample_net 700 <> action_pre_index sample_net 476 /\
  action_img_index sample_net 700 <> action_img_index sample_net 476 /\
  action_pre_index sample_net 700 = action_pre_index sample_net 701.
Proof. cbv zeta. split; [apply Nat.ltb_lt; vm_compute; reflexivity|]. vm_compute. repeat split; discriminate. Qed.

(** * C40 *)
(** The representative of an action is the smallest action that differs from it only in the names
    of symmetric links, and it represents itself. *)
Theorem C40_representative : forall net i, (forall pc, In pc net -> laid_out pc) ->
  i < actions_in net ->
  exists r, representative_action_index net i = Some r /\
    r <= i /\ same_action_class net i r /\
    representative_action_index net r = Some r /\
    (forall j, j < actions_in net -> same_action_class net i j -> r <= j).
Proof.
  intros net i LOs Hi.
  assert (LO : forall x, x < actions_in net -> laid_out (nth (act_pc (act_of net x)) net pc0)).
  { intros x Hx. apply LOs, nth_In. apply (act_of_spec net x Hx). }
  destruct (representative_spec net i Hi (LO i Hi)) as (r & R1 & R2 & R3 & R4 & R5).
  assert (C : same_action_class net i r) by (split; [auto|apply R4]).
  assert (Hr : r < actions_in net) by lia.
  exists r. split; auto. split; auto. split; auto. split.
  - rewrite <- R1. symmetry. apply representative_iff; auto.
  - intros j Hj Cj. apply representative_iff in Cj; auto. rewrite R1 in Cj.
    destruct (representative_spec net j Hj (LO j Hj)) as (s & S1 & S2 & _). rewrite S1 in Cj.
    injection Cj as <-. exact S2.
Qed.
Print Assumptions C40_representative.

(** Two actions have the same representative exactly when they differ only in the names of links. *)
Theorem C40_classes : forall net i j, (forall pc, In pc net -> laid_out pc) ->
  i < actions_in net -> j < actions_in net ->
  representative_action_index net i = representative_action_index net j <-> same_action_class net i j.
Proof.
  intros net i j LOs Hi Hj. apply representative_iff; auto; apply LOs, nth_In.
  - apply (act_of_spec net i Hi).
  - apply (act_of_spec net j Hj).
Qed.
Print Assumptions C40_classes.

(** The actions collected under the representative of an action are exactly its variants. *)
Theorem C40_represented : forall net i r j, (forall pc, In pc net -> laid_out pc) ->
  i < actions_in net -> representative_action_index net i = Some r ->
  In j (represented_actions net r) <-> j < actions_in net /\ same_action_class net i j.
Proof.
  intros net i r j LOs Hi R. rewrite represented_iff. split.
  - intros [Hj E]. split; auto. apply C40_classes; auto. congruence.
  - intros [Hj E]. split; auto. apply C40_classes in E; auto. congruence.
Qed.
Print Assumptions C40_represented.

(** Processes whose symmetric links are declared in a protocol file satisfy the layout condition. *)
Theorem C40_declared_processes : forall ds, (forall n vs, In (Symmetric n vs) ds -> 1 <= n) ->
  laid_out (declare ds).
Proof. exact declare_laid_out. Qed.
Print Assumptions C40_declared_processes.

Example C40_example :
  (forall pc, In pc sample_net -> laid_out pc) /\
  vals (act_of sample_net 700) = [0; 0; 0; 0; 2; 1; 1; 2; 2; 1] /\
  representative_action_index sample_net 700 = Some 476 /\
  vals (act_of sample_net 476) = [0; 0; 0; 0; 1; 1; 2; 1; 2; 2] /\
  representative_action_index sample_net 476 = Some 476 /\
  representative_action_index sample_net 900 = Some 900.
Proof.
  split.
  - intros pc [<-|[<-|[]]]; apply declare_laid_out; intros n vs H; cbn in H;
      repeat (destruct H as [H|H]; [try discriminate; injection H as <- <-; lia|]); destruct H.
  - vm_compute. repeat split.
Qed.

(** If the positions of the links of a block are not increasing (no protocol file produces this,
    but LinkSymmetry accepts it), two variants of an action can keep different representatives. *)
Definition unordered_links : pcsymm :=
  {| accs := [rd 2; rd 2; rd 2]; symms := [{| nlinks := 3; rows := [[2; 0; 1]] |}] |}.
Theorem C40_unordered_links_refuted : exists i j,
  i < actions_in [unordered_links] /\ j < actions_in [unordered_links] /\
  same_action_class [unordered_links] i j /\
  representative_action_index [unordered_links] i <> representative_action_index [unordered_links] j.
Proof.
  exists 1, 2. split; [cbn; lia|]. split; [cbn; lia|]. split.
  - split; [reflexivity|]. exists (fun i => match i with 1 => 2 | 2 => 1 | _ => i end). split.
    + split.
      * intros i Hi. specialize (Hi {| nlinks := 3; rows := [[2; 0; 1]] |} [2; 0; 1]). cbn in Hi.
        destruct i as [|[|[|i]]]; auto; exfalso; apply Hi; auto.
      * intros k [<-|[]]. exists (fun l => match l with 0 => 2 | 2 => 0 | _ => l end). cbn. split; [|split].
        -- intros [|[|[|l]]]; lia.
        -- intros [|[|[|l]]] [|[|[|l']]]; lia.
        -- intros [|r] l Hr Hl; [|lia]. destruct l as [|[|[|l]]]; auto; lia.
    + split.
      * intros [|[|[|i]]] Hi; cbn in Hi; try lia; vm_compute; reflexivity.
      * intros [|[|[|i]]] Hi [W|[W|[W|W]]]; cbn in Hi, W; try lia; discriminate.
  - vm_compute. discriminate.
Qed.
Print Assumptions C40_unordered_links_refuted.

(** * C43 *)
(** Two actions of a process accepted by the test with forced disabling can never be executed in
    the same local state, and if one can directly follow the other it changes nothing the process
    can see; if the process sees everything it writes, neither can follow the other. *)
Theorem C43_accepted_pair : forall safe pure net a b,
  act_pc a = act_pc b -> act_pc a < length net ->
  let pc := nth (act_pc a) net pc0 in
  no_randomness pc ->
  coexist_ck safe true pure net a b = true ->
  (forall x, ~ (can_act pc (vals a) x /\ can_act pc (vals b) x)) /\
  (forall x y, acts pc (vals a) x y -> can_act pc (vals b) y -> idle pc (vals b)) /\
  (forall x y, acts pc (vals b) x y -> can_act pc (vals a) y -> idle pc (vals a)) /\
  (everything_visible pc ->
     (forall x y, acts pc (vals a) x y -> ~ can_act pc (vals b) y) /\
     (forall x y, acts pc (vals b) x y -> ~ can_act pc (vals a) y)).
Proof.
  intros safe pure net a b E H pc NR CO. unfold coexist_ck in CO. rewrite <- E, Nat.eqb_refl in CO.
  cbn [negb] in CO. destruct (com_nth net _ H) as (K & _). rewrite K in CO. fold pc in CO.
  destruct (coexist_sound _ _ _ _ _ NR CO) as (S1 & S2 & S3 & S4). split; auto.
  split; [intros x y X Y; apply S2; exists x, y; auto|].
  split; [intros x y X Y; apply S3; exists x, y; auto|].
  intros EV. destruct (S4 EV) as [L1 L2].
  split; intros x y X Y; [apply L1|apply L2]; exists x, y; auto.
Qed.
Print Assumptions C43_accepted_pair.

(** A process made of pairwise accepted actions is deterministic, and after an action that changes
    something it cannot act again by itself. *)
Theorem C43_process : forall safe pure net k (S : list act),
  k < length net -> let pc := nth k net pc0 in
  no_randomness pc -> everything_visible pc ->
  (forall a, In a S -> act_pc a = k) ->
  (forall a b, In a S -> In b S -> a <> b -> coexist_ck safe true pure net a b = true) ->
  (forall x a b, In a S -> In b S -> can_act pc (vals a) x -> can_act pc (vals b) x -> a = b) /\
  (forall x y a b, In a S -> In b S -> acts pc (vals a) x y -> ~ idle pc (vals a) ->
     ~ can_act pc (vals b) y).
Proof.
  intros safe pure net k S Hk pc NR EV HK HC.
  assert (dec : forall a b : act, {a = b} + {a <> b})
    by (decide equality; [apply list_eq_dec, Nat.eq_dec|apply Nat.eq_dec]).
  assert (AP : forall a b, In a S -> In b S -> a <> b ->
     (forall x, ~ (can_act pc (vals a) x /\ can_act pc (vals b) x)) /\
     (forall x y, acts pc (vals a) x y -> ~ can_act pc (vals b) y)).
  { intros a b Ia Ib N. pose proof (HC a b Ia Ib N) as C.
    pose proof (C43_accepted_pair safe pure net a b) as P. cbv zeta in P.
    rewrite (HK a Ia), (HK b Ib) in P. destruct (P eq_refl Hk NR C) as (P1 & _ & _ & P4).
    split; auto. apply (P4 EV). }
  split.
  - intros x a b Ia Ib Ca Cb. destruct (dec a b) as [|N]; auto. exfalso.
    destruct (AP a b Ia Ib N) as [P _]. apply (P x). auto.
  - intros x y a b Ia Ib A NI C. destruct (dec a b) as [<-|N].
    + apply NI. intros i Hi V W. destruct A as [_ A]. destruct (A i Hi V) as [A1 _].
      rewrite <- (A1 W). apply (C i Hi V).
    + destruct (AP a b Ia Ib N) as [_ P]. apply (P x y A C).
Qed.
Print Assumptions C43_process.

(** For actions that change something the test is exact. *)
Theorem C43_exact : forall safe pure net a b,
  act_pc a = act_pc b -> act_pc a < length net ->
  let pc := nth (act_pc a) net pc0 in
  no_randomness pc -> everything_visible pc ->
  ~ idle pc (vals a) -> ~ idle pc (vals b) ->
  coexist_ck safe true pure net a b = true <->
  (forall x, ~ (can_act pc (vals a) x /\ can_act pc (vals b) x)) /\
  (forall x y, acts pc (vals a) x y -> ~ can_act pc (vals b) y) /\
  (forall x y, acts pc (vals b) x y -> ~ can_act pc (vals a) y).
Proof.
  intros safe pure net a b E H pc NR EV Ia Ib. split.
  - intros C. destruct (C43_accepted_pair safe pure net a b E H NR C) as (P1 & _ & _ & P4).
    split; auto.
  - intros (D & L1 & L2). unfold coexist_ck. rewrite <- E, Nat.eqb_refl.
    cbn [negb]. destruct (com_nth net _ H) as (K & _). rewrite K. fold pc.
    apply coexist_complete; auto.
    + intros (x & y & A & C). apply (L1 x y A C).
    + intros (x & y & A & C). apply (L2 x y A C).
Qed.
Print Assumptions C43_exact.

(** Without forced disabling, an accepted chain of two actions is one whose shortcut (the guard of
    the first with the assignments of the second) is not safe. *)
Theorem C43_chains : forall safe pure net a b,
  act_pc a = act_pc b -> act_pc a < length net ->
  let pc := nth (act_pc a) net pc0 in
  no_randomness pc ->
  action_values pc (vals a) -> action_values pc (vals b) ->
  coexist_ck safe false pure net a b = true ->
  (forall x, ~ (can_act pc (vals a) x /\ can_act pc (vals b) x)) /\
  (forall x y, acts pc (vals a) x y -> can_act pc (vals b) y -> ~ idle pc (vals b) ->
     exists c, act_pc c = act_pc a /\ safe c = false /\
       (forall i, i < length (accs pc) -> tested (vals c) i = tested (vals a) i) /\
       (forall i, i < length (accs pc) -> writable (nth i (accs pc) acc0) ->
          assigned pc (vals c) i = assigned pc (vals b) i)).
Proof.
  intros safe pure net a b E H pc NR Va Vb CO. unfold coexist_ck in CO. rewrite <- E, Nat.eqb_refl in CO.
  cbn [negb] in CO. destruct (com_nth net _ H) as (K & _). rewrite K in CO. fold pc in CO.
  destruct (coexist_chain _ _ _ _ _ NR CO) as (S1 & S2 & S3). split; auto.
  intros x y A C NI. destruct S2 as [S2|S2]; [exists x, y; auto|contradiction|].
  apply valid_spec in Va, Vb.
  destruct (chained_views pc (vals a) (vals b)) as (_ & T1 & T2); try (apply valid_length; auto).
  exists {| act_pc := act_pc a; vals := chained pc (vals a) (vals b) |}. cbn [act_pc vals].
  split; auto. split; auto. split; auto. intros i Hi W. apply T2; auto. apply writable_ck. exact W.
Qed.
Print Assumptions C43_chains.

(** The candidates that survive the trimming after using an action coexist with it in every naming
    of the symmetric links of either. *)
Theorem C43_trimming : forall safe pure net cands act c,
  (forall pc, In pc net -> laid_out pc) -> (forall pc, In pc net -> no_randomness pc) ->
  act < actions_in net -> representative_action_index net act = Some act ->
  c < actions_in net -> In c cands -> c <> act ->
  ~ In c (quick_trim safe true pure net cands act) ->
  forall i j, i < actions_in net -> j < actions_in net ->
    same_action_class net act i -> same_action_class net c j ->
    coexist_ck safe true pure net (act_of net i) (act_of net j) = true.
Proof.
  intros safe pure net cands a c L N Ha R Hc I D NT i j Hi Hj C1 C2.
  exact (quick_trim_sound safe pure net cands a c L N Hc R Ha I D NT i j Hi Hj C1 C2).
Qed.
Print Assumptions C43_trimming.

(** It removes only candidates that fail the test against a renaming of the action used. *)
Theorem C43_trimming_exact : forall safe pure net cands act c,
  (forall pc, In pc net -> laid_out pc) ->
  act < actions_in net -> representative_action_index net act = Some act ->
  In c (quick_trim safe true pure net cands act) <->
  In c cands /\ c <> act /\
  exists i, i < actions_in net /\ same_action_class net act i /\
    coexist_ck safe true pure net (act_of net i) (act_of net c) = false.
Proof.
  intros safe pure net cands a c L Ha R. unfold quick_trim.
  rewrite filter_In, andb_true_iff, negb_true_iff, Nat.eqb_neq, existsb_exists.
  split.
  - intros (H1 & H2 & i & H3 & H4). split; auto. split; auto. exists i.
    apply (C40_represented net a a i L Ha R) in H3. destruct H3 as [H3 H3'].
    apply negb_true_iff in H4. auto.
  - intros (H1 & H2 & i & H3 & H4 & H5). split; auto. split; auto. exists i.
    rewrite H5. split; auto. apply (C40_represented net a a i L Ha R). auto.
Qed.
Print Assumptions C43_trimming_exact.

(** Example: two processes of one variable reading a neighbour; x' = x+1 when behind. *)
Definition ring_pc : pcsymm := declare [Plain (rd 3); Plain (wr 3)].
Definition ring_act (x y z : nat) : act := {| act_pc := 0; vals := [x; y; z] |}.
Example C43_example :
  no_randomness ring_pc /\ everything_visible ring_pc /\
  coexist_ck (fun _ => true) true false [ring_pc] (ring_act 0 0 1) (ring_act 0 2 1) = true /\
  coexist_ck (fun _ => true) true false [ring_pc] (ring_act 0 0 1) (ring_act 0 1 2) = false /\
  coexist_ck (fun _ => true) true false [ring_pc] (ring_act 0 0 1) (ring_act 0 0 2) = false /\
  coexist_ck (fun _ => false) false false [ring_pc] (ring_act 0 0 1) (ring_act 0 1 2) = true /\
  ~ idle ring_pc (vals (ring_act 0 0 1)) /\
  acts ring_pc (vals (ring_act 0 0 1)) (fun i => 0) (fun i => i).
Proof.
  split; [intros a [<-|[<-|[]]]; split; discriminate|].
  split; [intros a [<-|[<-|[]]] _; repeat split; discriminate|].
  split; [reflexivity|]. split; [reflexivity|]. split; [reflexivity|]. split; [reflexivity|]. split.
  - intros C. specialize (C 1). cbn in C. discriminate C; auto.
    + repeat split; discriminate.
    + left. reflexivity.
  - split.
    + intros [|[|i]] Hi V; cbn in *; auto; lia.
    + intros [|[|i]] Hi V; cbn in Hi; try lia; split; intros W; try reflexivity.
      * destruct W as [W|[W|[W|W]]]; cbn in W; discriminate.
      * exfalso. apply W. left. reflexivity.
Qed.
