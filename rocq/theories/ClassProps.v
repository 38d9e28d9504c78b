(** C85: the ring classifier (/repo/src/uni/classify.cc). *)
From Coq Require Import List Arith Bool Lia.
From Verif Require Import UniModel UniSpec UniProofs LivelockModel LivelockSpec LivelockProofs LivelockProps LiveTorus
  FmlaModel CmdModel ClassModel ClassSpec ClassProofs.
Import ListNotations.

(** ** C85 *)
(** The classifier always ends and its number is exact: the least width of a livelock block between
    the two periods; or 0 when no strip of max_period columns repeats; or max_period + 1 otherwise. *)
Theorem C85_classification_is_exact :
  forall M t min_period max_period, table_ok M t -> 1 <= M -> 1 <= min_period -> 1 <= max_period ->
  exists r, bdd_classify M min_period max_period t = Some r /\
    ((min_period <= r <= max_period /\ has_block (table_protocol M t) r /\
      forall w, min_period <= w < r -> ~ has_block (table_protocol M t) w) \/
     (r = 0 /\ ~ strip (table_protocol M t) max_period) \/
     (r = max_period + 1 /\ strip (table_protocol M t) max_period /\
      forall w, min_period <= w <= max_period -> ~ has_block (table_protocol M t) w)).
Proof.
  intros M t mn mx OK MP MN MX. destruct (bdd_classify_spec M mx MP t OK mn MX) as (r & E & H). exists r. split; auto.
  destruct H as [(R1 & R2 & B & NB)|(NB & [(R & S0)|(R & S0)])].
  - left. split; auto. split; auto. intros w W. apply NB; lia.
  - right. left. auto.
  - right. right. split; auto. split; auto. intros w W. apply NB; lia.
Qed.
Print Assumptions C85_classification_is_exact.

Lemma bdd_cases : forall M t mn mx r, table_ok M t -> 1 <= M -> 1 <= mn -> 1 <= mx -> bdd_classify M mn mx t = Some r ->
  ((mn <= r <= mx /\ has_block (table_protocol M t) r /\ forall w, mn <= w < r -> ~ has_block (table_protocol M t) w) \/
   (r = 0 /\ ~ strip (table_protocol M t) mx) \/
   (r = mx + 1 /\ strip (table_protocol M t) mx /\ forall w, mn <= w <= mx -> ~ has_block (table_protocol M t) w)).
Proof. intros M t mn mx r OK MP MN MX E. destruct (C85_classification_is_exact M t mn mx OK MP MN MX) as (r' & E' & H). assert (r' = r) by congruence. subst. auto. Qed.

(** "silent" is right on rings of every size, for every pair of periods (self-disabling protocols). *)
Theorem C85_silent_is_livelock_free :
  forall M t min_period max_period r, table_ok M t -> 1 <= M -> 1 <= min_period -> 1 <= max_period ->
  self_disabling (table_protocol M t) ->
  bdd_classify M min_period max_period t = Some r -> verdict_of max_period r = VSilent ->
  livelock_free (table_protocol M t) M.
Proof.
  intros M t mn mx r OK MP MN MX SD E V. unfold verdict_of in V. destruct (r =? 0) eqn:Z; [|destruct (r <=? mx); discriminate]. apply Nat.eqb_eq in Z. subst r.
  destruct (bdd_cases M t mn mx 0 OK MP MN MX E) as [(B & _)|[(_ & S0)|(B & _)]]; try lia.
  intros N L. apply S0. destruct (proj1 (C55_livelock_iff_block t M OK SD) (ex_intro _ N L)) as (row & col & B).
  assert (LR : exists w, length row = S w). { destruct B as (m & n & G & _ & _ & LR & _). eauto. } destruct LR as (w & LR).
  apply (block_strip M mx MP t w). exists row, col. auto.
Qed.
Print Assumptions C85_silent_is_livelock_free.

(** "livelock" is right: there are livelocks on arbitrarily large rings, and the period is within
    the limits asked for. *)
Theorem C85_livelock_is_real :
  forall M t min_period max_period r p, table_ok M t -> 1 <= M -> 1 <= min_period -> 1 <= max_period ->
  bdd_classify M min_period max_period t = Some r -> verdict_of max_period r = VLivelock p ->
  min_period <= p <= max_period /\ has_block (table_protocol M t) p /\ livelocks_on_large_rings (table_protocol M t) M.
Proof.
  intros M t mn mx r p OK MP MN MX E V. unfold verdict_of in V. destruct (r =? 0) eqn:Z; [discriminate|]. destruct (r <=? mx) eqn:L; [|discriminate]. injection V as ->.
  apply Nat.eqb_neq in Z. apply Nat.leb_le in L.
  destruct (bdd_cases M t mn mx p OK MP MN MX E) as [(B & HB & _)|[(B & _)|(B & _)]]; try lia. split; auto. split; auto.
  destruct HB as (row & col & HB & _). exact (block_livelock M _ row col (table_protocol_range M t) HB).
Qed.
Print Assumptions C85_livelock_is_real.

Lemma strip_le : forall P v w, v <= w -> strip P w -> strip P v.
Proof. intros P v w L (m & G & H1 & H2 & H3). exists m, G. split; auto. split; [intros; apply H2; lia|intros; apply H3; lia]. Qed.
Lemma block_width_pos : forall P w, has_block P w -> 1 <= w.
Proof. intros P w (row & col & (m & n & G & HM & HN & LR & _) & L). lia. Qed.

(** A definite verdict never changes when the maximum period is raised. *)
Theorem C85_verdict_is_stable :
  forall M t min_period max_period max_period' r, table_ok M t -> 1 <= M -> 1 <= min_period -> 1 <= max_period <= max_period' ->
  bdd_classify M min_period max_period t = Some r -> verdict_of max_period r <> VUnknown ->
  bdd_classify M min_period max_period' t = Some r /\ verdict_of max_period' r = verdict_of max_period r.
Proof.
  intros M t mn mx mx' r OK MP MN MX E V.
  destruct (C85_classification_is_exact M t mn mx' OK MP MN ltac:(lia)) as (r' & E' & H').
  assert (R : r' = r /\ r <= mx).
  { destruct (bdd_cases M t mn mx r OK MP MN ltac:(lia) E) as [(B & HB & NB)|[(B & S0)|(B & S0 & NB)]].
    - split; [|lia]. destruct H' as [(B' & HB' & NB')|[(B' & S0')|(B' & S0' & NB')]].
      + destruct (lt_eq_lt_dec r r') as [[L|L]|L]; auto; exfalso; [apply (NB' r)|apply (NB r')]; auto; lia.
      + exfalso. apply S0'. apply (block_strip M mx' MP t r). auto.
      + exfalso. apply (NB' r); auto. lia.
    - subst r. split; [|lia]. destruct H' as [(B' & HB' & NB')|[(B' & S0')|(B' & S0' & NB')]]; auto; exfalso; apply S0.
      + apply (block_strip M mx MP t r'). auto.
      + apply (strip_le _ mx mx'); auto. lia.
    - exfalso. apply V. unfold verdict_of. subst r. replace (mx + 1 =? 0) with false by (symmetry; apply Nat.eqb_neq; lia). replace (mx + 1 <=? mx) with false by (symmetry; apply Nat.leb_gt; lia). auto. }
  destruct R as (-> & RL). split; auto. unfold verdict_of. destruct (r =? 0); auto. rewrite !(proj2 (Nat.leb_le _ _)) by lia. auto.
Qed.
Print Assumptions C85_verdict_is_stable.

(** Every livelock of a self-disabling protocol is found once the maximum period is large enough. *)
Theorem C85_every_livelock_is_classified :
  forall M t N, table_ok M t -> 1 <= M -> self_disabling (table_protocol M t) -> livelock_on (table_protocol M t) M N ->
  exists p, 1 <= p /\ forall max_period, p <= max_period -> exists r, bdd_classify M 1 max_period t = Some r /\ 1 <= r <= p /\ verdict_of max_period r = VLivelock r.
Proof.
  intros M t N OK MP SD L. destruct (proj1 (C55_livelock_iff_block t M OK SD) (ex_intro _ N L)) as (row & col & B).
  assert (LR : exists w, length row = S w). { destruct B as (m & n & G & _ & _ & LR & _). eauto. } destruct LR as (w & LR).
  assert (HB : has_block (table_protocol M t) w) by (exists row, col; auto). pose proof (block_width_pos _ _ HB) as WP.
  exists w. split; auto. intros mx MX. destruct (C85_classification_is_exact M t 1 mx OK MP ltac:(lia) ltac:(lia)) as (r & E & H). exists r. split; auto.
  destruct H as [(R & HR & NB)|[(R & S0)|(R & S0 & NB)]].
  - assert (r <= w). { destruct (le_lt_dec r w); auto. exfalso. apply (NB w); auto. } split; [lia|]. unfold verdict_of.
    destruct (r =? 0) eqn:Z; [apply Nat.eqb_eq in Z; lia|]. rewrite (proj2 (Nat.leb_le _ _)) by lia. auto.
  - exfalso. apply S0. apply (block_strip M mx MP t w). auto.
  - exfalso. apply (NB w); auto.
Qed.
Print Assumptions C85_every_livelock_is_classified.

(** The two methods never contradict each other on a self-disabling protocol, and with no minimum the
    formula method finds a livelock, of at most the same period, whenever -nobdd does. *)
Theorem C85_methods_agree :
  forall M t max_period r, table_ok M t -> 1 <= M -> 1 <= max_period ->
  bdd_classify M 1 max_period t = Some r ->
  (forall p, verdict_of max_period (tile_classify M max_period t) = VLivelock p -> 1 <= r <= p /\ verdict_of max_period r = VLivelock r) /\
  (self_disabling (table_protocol M t) -> verdict_of max_period (tile_classify M max_period t) = VSilent -> forall p, verdict_of max_period r <> VLivelock p) /\
  (verdict_of max_period r = VSilent -> forall p, verdict_of max_period (tile_classify M max_period t) <> VLivelock p).
Proof.
  intros M t mx r OK MP MX E. pose proof (bdd_cases M t 1 mx r OK MP ltac:(lia) MX E) as H.
  assert (T : forall p, verdict_of mx (tile_classify M mx t) = VLivelock p -> has_block (table_protocol M t) p /\ 1 <= p <= mx).
  { intros p V. unfold verdict_of in V. destruct (tile_classify M mx t =? 0) eqn:Z; [discriminate|]. destruct (tile_classify M mx t <=? mx) eqn:LE; [|discriminate]. injection V as V.
    apply Nat.eqb_neq in Z. apply Nat.leb_le in LE. unfold tile_classify in *. destruct (livelock_semick mx t M) as [| |row col] eqn:S0; try lia.
    destruct (C06_yes_is_a_livelock mx t M row col OK S0) as (B & _). assert (LR : exists w, length row = S w). { destruct B as (m & n & G & _ & _ & LR & _). eauto. } destruct LR as (w & LR).
    rewrite LR in *. assert (w = p) by lia. subst w. split; [exists row, col; auto|lia]. }
  assert (K : forall p, verdict_of mx (tile_classify M mx t) = VLivelock p -> 1 <= r <= p /\ verdict_of mx r = VLivelock r).
  { intros p V. apply T in V. destruct V as (HB & PL). destruct H as [(R & HR & NB)|[(R & S0)|(R & S0 & NB)]].
    - assert (r <= p). { destruct (le_lt_dec r p); auto. exfalso. apply (NB p); auto. lia. } split; [lia|]. unfold verdict_of.
      destruct (r =? 0) eqn:Z; [apply Nat.eqb_eq in Z; lia|]. rewrite (proj2 (Nat.leb_le _ _)) by lia. auto.
    - exfalso. apply S0. apply (block_strip M mx MP t p). auto.
    - exfalso. apply (NB p); auto. }
  split; auto. split.
  - intros SD V p V'. destruct (C85_livelock_is_real M t 1 mx r p OK MP ltac:(lia) MX E V') as (_ & _ & L). destruct (L 0) as (N & _ & LN).
    unfold verdict_of in V. destruct (tile_classify M mx t =? 0) eqn:Z; [|destruct (tile_classify M mx t <=? mx); discriminate]. apply Nat.eqb_eq in Z. unfold tile_classify in Z.
    destruct (livelock_semick mx t M) as [| |row col] eqn:S0; try lia.
    + exact (C07_nil_is_livelock_free mx t M OK SD S0 N LN).
    + destruct (C06_yes_is_a_livelock mx t M row col OK S0) as ((m & n & G & _ & HN & LR & _) & _). lia.
  - intros V p V'. destruct (K p V') as (R & _). unfold verdict_of in V. destruct (r =? 0) eqn:Z; [apply Nat.eqb_eq in Z; lia|destruct (r <=? mx); discriminate].
Qed.
Print Assumptions C85_methods_agree.

(** -nobdd does not honour the minimum period: it may answer with a smaller one, and so say
    livelock where the formula method says unknown. *)
Theorem C85_nobdd_minimum_refuted :
  exists M t min_period max_period p, table_ok M t /\ 1 <= min_period <= max_period /\
    verdict_of max_period (tile_classify M max_period t) = VLivelock p /\ p < min_period.
Proof. exists 2, [1; 2; 2; 0], 3, 4, 2. split; [repeat constructor|]. split; [lia|]. vm_compute. auto. Qed.
Print Assumptions C85_nobdd_minimum_refuted.

(** 0,1 -> 2 -> 0 -> 1 on three values livelocks with period 1; the height of that block is 3, so
    -nobdd with maximum 2 does not know. *)
Example C85_example :
  table_ok 3 [3; 0; 3; 3; 3; 1; 2; 3; 3] /\ bdd_classify 3 1 1 [3; 0; 3; 3; 3; 1; 2; 3; 3] = Some 1 /\
  tile_classify 3 2 [3; 0; 3; 3; 3; 1; 2; 3; 3] = 3 /\
  table_ok 2 [1; 2; 2; 0] /\ bdd_classify 2 1 2 [1; 2; 2; 0] = Some 2 /\
  bdd_classify 2 1 1 [1; 2; 2; 0] = Some 2 /\
  table_ok 2 [1; 2; 2; 2] /\ bdd_classify 2 1 1 [1; 2; 2; 2] = Some 0.
Proof. repeat match goal with |- _ /\ _ => split end; try (repeat constructor); vm_compute; auto. Qed.
