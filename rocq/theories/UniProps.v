(** Properties C01-C05: data representations of unidirectional-ring protocols. *)
From Coq Require Import String Ascii List Arith Lia Bool.
From Verif Require Import FinLib UniModel UniSpec UniProofs B64Proofs.
Import ListNotations.
Local Open Scope nat_scope.

(** ** C01 *)
Theorem C01_action_id_roundtrip :
  forall M a b c, a < M -> b < M -> c < M ->
    id_of3 a b c M < M * M * M /\ uniact_of_id (id_of3 a b c M) M = (a, b, c).
Proof. intros; split; [apply id3_lt | apply uniact_of_id3]; auto. Qed.
Print Assumptions C01_action_id_roundtrip.

Theorem C01_action_id_onto :
  forall M i, i < M * M * M ->
    exists a b c, uniact_of_id i M = (a, b, c) /\ a < M /\ b < M /\ c < M /\ id_of3 a b c M = i.
Proof.
  intros M i H. pose proof (uniact_of_id_range M i H) as R.
  destruct (uniact_of_id i M) as [[a b] c]. exists a, b, c. tauto.
Qed.
Print Assumptions C01_action_id_onto.

Theorem C01_step_id_roundtrip :
  forall M a b, a < M -> b < M ->
    id_of2 a b M < M * M /\ unistep_of_id (id_of2 a b M) M = (a, b).
Proof. intros; split; [apply id2_lt | apply unistep_of_id2]; auto. Qed.
Print Assumptions C01_step_id_roundtrip.

Theorem C01_step_id_onto :
  forall M i, i < M * M ->
    exists a b, unistep_of_id i M = (a, b) /\ a < M /\ b < M /\ id_of2 a b M = i.
Proof.
  intros M i H. pose proof (unistep_of_id_range M i H) as R.
  destruct (unistep_of_id i M) as [a b]. exists a, b. tauto.
Qed.
Print Assumptions C01_step_id_onto.

Example C01_example : id_of3 2 0 1 3 = 19 /\ uniact_of_id 19 3 = (2, 0, 1).
Proof. split; reflexivity. Qed.

(** ** C02 *)
Theorem C02_actions_of_table :
  forall M t, M <> 0 -> length t = M * M ->
    NoDup (actions_of_ppgfun t M) /\
    forall a b c, In (a, b, c) (actions_of_ppgfun t M) <-> table_protocol M t a b c.
Proof.
  intros; split; [apply actions_of_ppgfun_NoDup; auto | apply actions_of_ppgfun_spec; auto].
Qed.
Print Assumptions C02_actions_of_table.

Theorem C02_table_of_actions :
  forall M acts, M <> 0 ->
    (forall a b c, In (a, b, c) acts -> a < M /\ b < M /\ c < M) ->
    deterministic (fun a b c => In (a, b, c) acts) ->
    table_ok M (ppgfun_of_acts acts M) /\
    forall a b c, table_protocol M (ppgfun_of_acts acts M) a b c <-> In (a, b, c) acts.
Proof.
  intros M acts HM HR HD.
  assert (HF : Forall (act_range M) acts).
  { apply Forall_forall. intros [[a b] c] H. apply HR in H. exact H. }
  split; [apply ppgfun_of_acts_ok; auto | apply ppgfun_of_acts_spec; auto].
Qed.
Print Assumptions C02_table_of_actions.

(** Without determinism the table still holds only given actions, one for every
    enabled pair (the last one listed wins in the code; which one is not claimed). *)
Theorem C02_table_of_actions_nondeterministic :
  forall M acts, M <> 0 ->
    (forall a b c, In (a, b, c) acts -> a < M /\ b < M /\ c < M) ->
    (forall a b c, table_protocol M (ppgfun_of_acts acts M) a b c -> In (a, b, c) acts) /\
    (forall a b c, In (a, b, c) acts ->
       exists c', table_protocol M (ppgfun_of_acts acts M) a b c').
Proof.
  intros M acts HM HR.
  assert (HF : Forall (act_range M) acts).
  { apply Forall_forall. intros [[a b] c] H. apply HR in H. exact H. }
  pose proof (ppgfun_of_acts_length M acts HM) as L.
  assert (Hnth : forall a b, a < M -> b < M ->
     let v := nth (id_of2 a b M) (ppgfun_of_acts acts M) M in
     In (a, b, v) acts \/ (v = M /\ forall c, ~ In (a, b, c) acts)).
  { intros a b Ha Hb. unfold ppgfun_of_acts.
    replace (M =? 0) with false by (symmetry; apply Nat.eqb_neq; auto).
    pose proof (put_acts_nth M acts (repeat M (M * M)) a b HF (repeat_length _ _) Ha Hb) as H.
    rewrite nth_repeat' in H. exact H. }
  split.
  - intros a b c H. assert (a < M /\ b < M) as [Ha Hb] by (destruct H; tauto).
    apply table_protocol_nth in H; auto. destruct H as [Hc <-].
    destruct (Hnth a b Ha Hb) as [H|[H _]]; auto. lia.
  - intros a b c H. destruct (HR _ _ _ H) as (Ha & Hb & _).
    exists (nth (id_of2 a b M) (ppgfun_of_acts acts M) M).
    apply table_protocol_nth; auto. split; auto.
    destruct (Hnth a b Ha Hb) as [H1|[_ H1]]; [apply HR in H1; tauto|]. destruct (H1 _ H).
Qed.
Print Assumptions C02_table_of_actions_nondeterministic.

Theorem C02_actset_of_table :
  forall M t, M <> 0 -> length t = M * M ->
    length (actset_of_ppgfun t M) = M * M * M /\
    forall a b c, a < M -> b < M -> c < M ->
      (nth_error (actset_of_ppgfun t M) ((a * M + b) * M + c) = Some true
       <-> table_protocol M t a b c).
Proof.
  intros; split; [apply actset_of_ppgfun_length; auto | apply actset_of_ppgfun_spec; auto].
Qed.
Print Assumptions C02_actset_of_table.

Theorem C02_actions_of_actset :
  forall M bt, M <> 0 -> length bt = M * M * M ->
    forall a b c, In (a, b, c) (actions_of_actset bt M) <->
      a < M /\ b < M /\ c < M /\ nth_error bt ((a * M + b) * M + c) = Some true.
Proof. exact actions_of_actset_spec. Qed.
Print Assumptions C02_actions_of_actset.

Theorem C02_table_actset_roundtrip :
  forall M t, M <> 0 -> table_ok M t -> ppgfun_of_actset (actset_of_ppgfun t M) M = t.
Proof. exact ppgfun_of_actset_of_ppgfun. Qed.
Print Assumptions C02_table_actset_roundtrip.

(** The domain-size argument may be omitted (0): it is recovered. *)
Theorem C02_default_domain_size :
  forall M t, 1 <= M <= 255 -> length t = M * M ->
    actions_of_ppgfun t 0 = actions_of_ppgfun t M /\
    actset_of_ppgfun t 0 = actset_of_ppgfun t M.
Proof.
  intros M t HM L. unfold actions_of_ppgfun, actset_of_ppgfun.
  rewrite (domsz_of_ppgfun_square t M) by (auto; lia).
  replace (M =? 0) with false by (symmetry; apply Nat.eqb_neq; lia). split; reflexivity.
Qed.
Print Assumptions C02_default_domain_size.

(** The 2-value protocol with the single actions 00->1 and 10->1. *)
Example C02_example :
  actions_of_ppgfun [1; 2; 1; 2] 2 = [(0, 0, 1); (1, 0, 1)] /\
  ppgfun_of_acts [(1, 0, 1); (0, 0, 1)] 2 = [1; 2; 1; 2] /\
  actset_of_ppgfun [1; 2; 1; 2] 2 = [false; true; false; false; false; true; false; false] /\
  table_ok 2 [1; 2; 1; 2].
Proof. repeat split; try reflexivity. repeat constructor. Qed.

(** ** C03 *)
Theorem C03_table_domain_size :
  forall t, (forall k, k <= 255 -> length t = k * k -> domsz_of_ppgfun t = k) /\
            ((forall k, length t <> k * k) -> domsz_of_ppgfun t = 0).
Proof. intros; split; [apply domsz_of_ppgfun_square | apply domsz_of_ppgfun_nonsquare]. Qed.
Print Assumptions C03_table_domain_size.

Theorem C03_actset_domain_size :
  forall t, (forall k, k <= 255 -> length t = k * k * k -> domsz_of_actset t = k) /\
            ((forall k, length t <> k * k * k) -> domsz_of_actset t = 0).
Proof. intros; split; [apply domsz_of_actset_cube | apply domsz_of_actset_noncube]. Qed.
Print Assumptions C03_actset_domain_size.

Theorem C03_actions_domain_size :
  forall acts,
  (forall a b c, In (a, b, c) acts -> a < 255 /\ b < 255 /\ c < 255) ->
  (forall a b c, In (a, b, c) acts ->
     a < domsz_of_acts acts /\ b < domsz_of_acts acts /\ c < domsz_of_acts acts) /\
  (acts <> [] -> exists a b c, In (a, b, c) acts /\
     (domsz_of_acts acts = S a \/ domsz_of_acts acts = S b \/ domsz_of_acts acts = S c)) /\
  (acts = [] -> domsz_of_acts acts = 0).
Proof. exact domsz_of_acts_spec. Qed.
Print Assumptions C03_actions_domain_size.

Example C03_example :
  domsz_of_ppgfun (repeat 0 9) = 3 /\ domsz_of_ppgfun (repeat 0 8) = 0 /\
  domsz_of_actset (repeat false 27) = 3 /\ domsz_of_acts [(0, 4, 1)] = 5.
Proof. repeat split; reflexivity. Qed.

(** ** C04 *)
Theorem C04_b64_roundtrip :
  forall be M t, 1 <= M <= 255 -> table_ok M t ->
    xget_b64_ppgfun be (oput_b64_ppgfun be t M) = Some (M, t).
Proof. exact b64_roundtrip. Qed.
Print Assumptions C04_b64_roundtrip.

Theorem C04_b64_injective :
  forall be M t M' t', 1 <= M <= 255 -> 1 <= M' <= 255 -> table_ok M t -> table_ok M' t' ->
    oput_b64_ppgfun be t M = oput_b64_ppgfun be t' M' -> M = M' /\ t = t'.
Proof.
  intros be M t M' t' H1 H2 H3 H4 E.
  apply (f_equal (xget_b64_ppgfun be)) in E. rewrite !b64_roundtrip in E by auto.
  injection E as -> ->. auto.
Qed.
Print Assumptions C04_b64_injective.

Example C04_example :
  string_of_list_ascii (oput_b64_ppgfun true [1; 2; 2; 0] 2) = "fP"%string /\
  xget_b64_ppgfun true (list_ascii_of_string "fP") = Some (2, [1; 2; 2; 0]) /\
  table_ok 2 [1; 2; 2; 0].
Proof. repeat split; try reflexivity. repeat constructor. Qed.

(** ** C05 *)
(** Specification of the accepted language: the alphabet and the lengths. *)
Definition b64_alphabet : list ascii :=
  list_ascii_of_string "ABCDEFGHIJKLMNOPQRSTUVWXYZabcdefghijklmnopqrstuvwxyz0123456789-_".
(** M*M fields of 1+floor(log2 M) bits, 6 bits per character, rounded up. *)
Definition b64_length (M : nat) : nat := (M * M * (1 + Nat.log2 M) + 5) / 6.

Lemma alphabet_val : forall c, In c b64_alphabet <-> b64_val c < 64.
Proof.
  intros c.
  assert (H : forall c, existsb (Ascii.eqb c) b64_alphabet = (b64_val c <? 64)).
  { intros [[] [] [] [] [] [] [] []]; vm_compute; reflexivity. }
  rewrite <- Nat.ltb_lt, <- H, existsb_exists. split.
  - intros Hc. exists c. split; auto. apply Ascii.eqb_refl.
  - intros (x & Hx & E). apply Ascii.eqb_eq in E. subst; auto.
Qed.

Lemma alphabet_all : forall s, (forall c, In c s -> In c b64_alphabet) \/ (exists c, In c s /\ 64 <= b64_val c).
Proof.
  induction s as [|c s [IH|(c' & H1 & H2)]].
  - left. intros c [].
  - destruct (le_lt_dec 64 (b64_val c)) as [H|H].
    + right. exists c. split; [left|]; auto.
    + left. intros c' [<-|Hc']; auto. apply alphabet_val; auto.
  - right. exists c'. split; [right|]; auto.
Qed.

(** Accepted exactly when every character is in the alphabet and the length is
    that of some domain size. *)
Theorem C05_accepts_exactly :
  forall be s,
    (exists r, xget_b64_ppgfun be s = Some r) <->
    (forall c, In c s -> In c b64_alphabet) /\ (exists M, 1 <= M /\ length s = b64_length M).
Proof.
  intros be s. split.
  - intros ([r t] & H). destruct (xget_b64_some be s r t H) as (M & H1 & H2 & _).
    split; [|exists M; split; auto].
    destruct (alphabet_all s) as [A|A]; auto.
    assert (xget_b64_ppgfun be s = None) by (apply xget_b64_none; auto). congruence.
  - intros (H1 & M & H2 & H3).
    destruct (xget_b64_long_token be M s H2 H3) as (t & H & _); eauto.
    intros c Hc. apply alphabet_val; auto.
Qed.
Print Assumptions C05_accepts_exactly.

(** The result of an accepted token that is not longer than the id of the
    largest domain size a byte can hold is a well-formed protocol table. *)
Theorem C05_result_well_formed :
  forall be s r t, xget_b64_ppgfun be s = Some (r, t) ->
    length s <= b64_length 255 ->
    1 <= r <= 255 /\ length s = b64_length r /\ table_ok r t.
Proof.
  intros be s r t. apply (xget_b64_short 255). split; repeat constructor.
Qed.
Print Assumptions C05_result_well_formed.

(** Finding: for a longer token the returned domain size is the low byte only
    and does not describe the returned table. *)
Theorem C05_long_token_refuted :
  exists s r t, xget_b64_ppgfun true s = Some (r, t) /\ r <> 0 /\ length t <> r * r.
Proof.
  destruct (xget_b64_long_token true 257 (repeat "A"%char (enc_len 257))) as (t & H1 & H2).
  - lia.
  - apply repeat_length.
  - intros c Hc. apply repeat_spec in Hc. subst. change (b64_val "A") with 0. lia.
  - exists (repeat "A"%char (enc_len 257)), (byte 257), t. split; auto.
    change (byte 257) with 1. split; [lia|]. rewrite H2. lia.
Qed.
Print Assumptions C05_long_token_refuted.

(** Finding: the decoder writes bits beyond the end of its bit table. *)
Theorem C05_no_overrun_refuted :
  exists s r, xget_b64_ppgfun true s = Some r /\ b64_oob_bits s = 5.
Proof. exists (list_ascii_of_string "A"). eexists. split; reflexivity. Qed.
Print Assumptions C05_no_overrun_refuted.

(** ... but never by more than five bits. *)
Theorem C05_overrun_bounded :
  forall be s r, xget_b64_ppgfun be s = Some r -> b64_oob_bits s <= 5.
Proof.
  intros be s [r t] H. destruct (xget_b64_some be s r t H) as (M & H1 & H2 & _).
  unfold b64_oob_bits. rewrite H2, b64_domsz_enc_len by auto.
  pose proof (enc_len_bounds M). lia.
Qed.
Print Assumptions C05_overrun_bounded.

Example C05_example :
  xget_b64_ppgfun true (list_ascii_of_string "f") = Some (1, [0]) /\
  xget_b64_ppgfun true (list_ascii_of_string "f!") = None /\
  xget_b64_ppgfun true (list_ascii_of_string "ffff") = None.
Proof. repeat split; reflexivity. Qed.
