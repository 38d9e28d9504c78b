(** C87: the text forms of a ring protocol mean the same protocol. *)
From Coq Require Import String Ascii List Arith Bool ZArith Lia.
From Verif Require Import FinLib ParseModel AccessModel PrintModel.
From Verif Require Import FmlaModel FmlaSpec FmlaProofs ActModel NetModel CmdModel UniModel UniSpec UniProofs B64Proofs WangSpec LivelockSpec
  UtextModel UtextSpec UtextProofs.
Import ListNotations.
Local Open Scope string_scope.
Local Open Scope list_scope.
Local Open Scope nat_scope.

(** ** The protocol file *)
Lemma below_all : forall M acts, acts_below M acts -> Forall (below M) acts.
Proof. intros M acts H. apply Forall_forall. intros ((a & b) & c) I. apply H. auto. Qed.
(** The main tool, reading the file that is written for a protocol, with any number of processes, has a variable for every
    process, gives process i its own variable and the one of its predecessor, and makes exactly the steps of the protocol. *)
Theorem C87_prot_file : forall n M acts, 1 <= n -> 1 <= M -> acts_below M acts ->
  exists net T, read_prot n (oput_protocon acts M) = Some (net, T) /\ vdoms net = repeat M n /\
  map p_vbls (pcs net) = map (fun i => [pred_of n i; i]) (seq 0 n) /\
  forall s t, ok (vdoms net) s -> ok (vdoms net) t -> (FmlaSpec.steps (t_direct T) s t <-> ring_step (protocol_of acts) s t).
Proof.
  intros n M acts N1 M1 B. destruct (prot_read n M acts N1 M1 (below_all M acts B)) as (net & T & E & V & P & ST).
  exists net, T. rewrite V. auto.
Qed.
Print Assumptions C87_prot_file.

Lemma ring_ok : forall n M s, ok (repeat M n) s <-> length s = n /\ in_domain M s.
Proof.
  induction n as [|n IH]; intros M s; cbn [repeat]; split.
  - intros H. inversion H; subst. split; [reflexivity|constructor].
  - intros (L & _). destruct s; [constructor|discriminate].
  - intros H. inversion H as [|x d s' ds X H']; subst. apply IH in H'. destruct H' as (L & D). split; [cbn; auto|]. constructor; auto.
  - intros (L & D). destruct s as [|x s]; [discriminate|]. inversion D as [|? ? X D']; subst. constructor; auto. apply IH. split; auto.
Qed.
Lemma step_domain : forall M acts s t, acts_below M acts -> in_domain M s -> ring_step (protocol_of acts) s t -> length t = length s /\ in_domain M t.
Proof.
  intros M acts s t B D (p & a & b & c & E1 & E2 & P & ->). assert (PL : p < length s) by (apply nth_error_Some; congruence). split.
  - rewrite app_length, firstn_length. cbn [length]. rewrite skipn_length. lia.
  - unfold in_domain in *. rewrite <- (firstn_skipn p s) in D. apply Forall_app in D. destruct D as (D1 & D2). apply Forall_app. split; auto.
    constructor; [apply (B a b c); auto|]. destruct (skipn p s) as [|x l] eqn:E; [assert (L := skipn_length p s); rewrite E in L; cbn in L; lia|].
    inversion D2; subst. replace (skipn (S p) s) with l; auto. clear - E. revert s E. induction p as [|p IH]; intros s E; destruct s as [|y s]; cbn in *; try discriminate.
    + injection E as _ <-. reflexivity.
    + apply IH. auto.
Qed.
(** So it can run forever exactly if the protocol has a livelock on a ring of that size. *)
Theorem C87_prot_livelock : forall n M acts, 1 <= n -> 1 <= M -> acts_below M acts ->
  exists net T, read_prot n (oput_protocon acts M) = Some (net, T) /\
  ((exists e : nat -> list nat, forall k, ok (vdoms net) (e k) /\ FmlaSpec.steps (t_direct T) (e k) (e (S k))) <->
   livelock_on (protocol_of acts) M n).
Proof.
  intros n M acts N1 M1 B. destruct (C87_prot_file n M acts N1 M1 B) as (net & T & E & V & _ & ST). exists net, T. split; auto. split.
  - intros (e & H). exists e. pose proof (proj1 (H 0)) as O. rewrite V in O. apply ring_ok in O. destruct O as (L & D). split; auto. split; auto.
    intros k. apply ST; apply H.
  - intros (e & L & D & H). exists e. assert (O : forall k, length (e k) = n /\ in_domain M (e k)).
    { induction k as [|k (LK & DK)]; [auto|]. destruct (step_domain M acts (e k) (e (S k)) B DK (H k)). split; [lia|auto]. }
    assert (OK : forall k, ok (vdoms net) (e k)) by (intros k; rewrite V; apply ring_ok; auto).
    intros k. split; auto. apply ST; auto.
Qed.
Print Assumptions C87_prot_livelock.

(** ** Lists of actions *)
Lemma byte_lt : forall x, x < 256 -> byte x = x. Proof. intros x H. apply byte_small. lia. Qed.
Lemma list_read : forall acts, acts_below 256 acts -> xget_triples (oput_list acts) = Some acts.
Proof.
  induction acts as [|((a & b) & c) acts IH]; intros B; [reflexivity|]. cbn [oput_list map xget_triples xget_triple].
  destruct (B a b c (or_introl eq_refl)) as (BA & BB & BC). rewrite !byte_lt by auto. fold (oput_list acts). rewrite IH; [reflexivity|].
  intros x y z I. apply B. right. auto.
Qed.
(** A written list is read back, with the smallest domain that has all its values. *)
Theorem C87_list : forall acts, acts <> [] -> acts_below 255 acts ->
  exists M, xget_list (oput_list acts) = Some (acts, M) /\ 1 <= M <= 255 /\ smallest_domain M acts.
Proof.
  intros acts NE B. unfold xget_list. rewrite list_read by (intros a b c I; destruct (B a b c I) as (X & Y & Z); lia).
  exists (domsz_of_acts acts). destruct (domsz_of_acts_spec acts B) as (S1 & S2 & _). split; [destruct acts; [congruence|reflexivity]|].
  destruct (S2 NE) as (a & b & c & I & E). destruct (B a b c I) as (X & Y & Z). split; [lia|]. split; [exact S1|].
  intros M' BM. destruct (BM a b c I) as (X' & Y' & Z'). lia.
Qed.
Print Assumptions C87_list.

(** Anything after the first line without numbers is ignored; a line with one or two numbers is an error. *)
Theorem C87_list_rest : forall acts rest, acts_below 256 acts -> xget_list (oput_list acts ++ [] :: rest) = xget_list (oput_list acts).
Proof.
  intros acts rest B. unfold xget_list. assert (E : xget_triples (oput_list acts ++ [] :: rest) = xget_triples (oput_list acts)); [|rewrite E; reflexivity].
  rewrite list_read by auto. induction acts as [|((a & b) & c) acts IH]; [reflexivity|]. cbn [oput_list map app xget_triples xget_triple].
  destruct (B a b c (or_introl eq_refl)) as (BA & BB & BC). rewrite !byte_lt by auto. fold (oput_list acts). rewrite IH; [reflexivity|].
  intros x y z I. apply B. right. auto.
Qed.
Print Assumptions C87_list_rest.

(** ** The translator *)
Lemma table_eq : forall M t t', table_ok M t -> table_ok M t' -> (forall a b c, table_protocol M t a b c <-> table_protocol M t' a b c) -> t = t'.
Proof.
  intros M t t' (L & F) (L' & F') H. apply (nth_ext _ _ M M); [congruence|]. intros k K. rewrite L in K.
  assert (M0 : M <> 0) by (intros ->; lia).
  assert (A : k / M < M) by (apply Nat.div_lt_upper_bound; lia). assert (B : k mod M < M) by (apply Nat.mod_upper_bound; auto).
  assert (E : id_of2 (k / M) (k mod M) M = k) by (unfold id_of2; rewrite (Nat.div_mod k M) at 3 by auto; lia).
  rewrite Forall_forall in F, F'.
  assert (X : nth k t M <= M) by (apply F; apply nth_In; lia). assert (Y : nth k t' M <= M) by (apply F'; apply nth_In; lia).
  pose proof (H (k / M) (k mod M) (nth k t M)) as H1. pose proof (H (k / M) (k mod M) (nth k t' M)) as H2.
  rewrite !table_protocol_nth in H1, H2 by auto. rewrite !E in H1, H2. lia.
Qed.
Lemma bytes_of_table : forall M t, M <= 255 -> table_ok M t -> map byte t = t.
Proof.
  intros M t ML (_ & F). rewrite Forall_forall in F. rewrite <- (map_id t) at 2. apply map_ext_in. intros x X. apply byte_lt. specialize (F x X). lia.
Qed.

(** A list is translated to the list itself, to an id from which the same protocol is read, and to a protocol file for
    this protocol; the domain is the one given, or the smallest one. *)
Theorem C87_from_list : forall be acts M override, acts <> [] -> deterministic (protocol_of acts) ->
  (if override =? 0 then smallest_domain M acts /\ M <= 255 else M = override /\ acts_below M acts /\ M <= 255) ->
  exists o t, xlate be (XList (oput_list acts)) override = Some o /\ x_list o = oput_list acts /\
  xget_b64_ppgfun be (x_id o) = Some (M, t) /\ table_ok M t /\ (forall a b c, table_protocol M t a b c <-> protocol_of acts a b c) /\
  x_prot o = oput_protocon acts M.
Proof.
  intros be acts M override NE DET HM.
  assert (B : acts_below M acts /\ M <= 255) by (destruct (override =? 0); [destruct HM as ((H & _) & L)|destruct HM as (_ & H & L)]; auto). destruct B as (B & ML).
  assert (M0 : M <> 0).
  { intros ->. destruct acts as [|((a & b) & c) acts]; [congruence|]. destruct (B a b c (or_introl eq_refl)). lia. }
  assert (B5 : acts_below 255 acts) by (intros a b c I; destruct (B a b c I) as (X & Y & Z); lia).
  destruct (C87_list acts NE B5) as (D & E & DL & SD). unfold xlate, xlate_protocol. rewrite E.
  destruct (Nat.eqb_spec D 0); [lia|].
  assert (DM : D <= M) by (apply SD; auto).
  assert (OV : (0 <? override) && (override <? D) = false /\ (if 0 <? override then override else D) = M).
  { destruct (Nat.eqb_spec override 0) as [->|NO].
    - cbn. split; auto. destruct HM as ((H & H') & _). apply Nat.le_antisymm; [auto|]. apply H'. apply SD.
    - destruct HM as (-> & _). split; [|replace (0 <? override) with true by (symmetry; apply Nat.ltb_lt; lia); reflexivity].
      apply andb_false_iff. right. apply Nat.ltb_ge. auto. }
  destruct OV as (-> & ->).
  assert (RG : Forall (act_range M) acts) by (apply Forall_forall; intros ((a & b) & c) I; apply B; auto).
  pose proof (ppgfun_of_acts_ok M acts M0 RG) as TO. pose proof (ppgfun_of_acts_spec M acts M0 RG DET) as TP.
  rewrite (bytes_of_table M _ ML TO). eexists _, (ppgfun_of_acts acts M). split; [reflexivity|]. cbn [x_list x_id x_prot]. split; auto. split; [apply b64_roundtrip; auto; lia|].
  split; auto.
Qed.
Print Assumptions C87_from_list.

(** An id is translated to itself, to the list of its actions, and to a protocol file for these; translating the list back, with
    the same domain, gives the same results. *)
Theorem C87_from_id : forall be M t, 1 <= M <= 255 -> table_ok M t ->
  exists o acts, xlate be (XId (oput_b64_ppgfun be t M)) 0 = Some o /\ x_id o = oput_b64_ppgfun be t M /\ x_list o = oput_list acts /\ NoDup acts /\
  (forall a b c, table_protocol M t a b c <-> protocol_of acts a b c) /\ x_prot o = oput_protocon acts M /\
  (acts <> [] -> xlate be (XList (x_list o)) M = Some o).
Proof.
  intros be M t ML TO. unfold xlate, xlate_protocol at 1. cbn [Nat.ltb Nat.leb]. rewrite b64_roundtrip by auto.
  destruct (Nat.eqb_spec M 0); [lia|].
  assert (AE : actions_of_ppgfun t 0 = actions_of_ppgfun t M).
  { unfold actions_of_ppgfun. rewrite (domsz_of_ppgfun_square t M) by (try apply TO; lia). destruct (Nat.eqb_spec M 0); [lia|reflexivity]. }
  rewrite AE. set (acts := actions_of_ppgfun t M).
  assert (SP : forall a b c, In (a, b, c) acts <-> table_protocol M t a b c) by (apply actions_of_ppgfun_spec; [lia|apply TO]).
  eexists _, acts. split; [reflexivity|]. cbn [x_list x_id x_prot]. split; auto. split; auto. split; [apply actions_of_ppgfun_NoDup; lia|].
  split; [intros a b c; symmetry; apply SP|]. split; auto. intros NE.
  assert (B : acts_below M acts) by (intros a b c I; apply SP in I; unfold table_protocol in I; tauto).
  assert (DET : deterministic (protocol_of acts)).
  { intros a b c d X Y. apply SP in X, Y. unfold table_protocol in X, Y. destruct X as (_ & _ & _ & X), Y as (_ & _ & _ & Y). congruence. }
  destruct (C87_from_list be acts M M NE DET) as (o & t' & E & E1 & E2 & TO' & TP & E3).
  { destruct (Nat.eqb_spec M 0); [lia|]. split; auto. split; auto. lia. }
  fold (xlate be (XList (oput_list acts)) M). rewrite E. f_equal. destruct o as [oi ol op]. cbn [x_list x_id x_prot] in *. f_equal; auto.
  assert (TT : t' = t) by (apply (table_eq M); auto; intros a b c; rewrite TP; apply SP). subst t'.
  unfold xlate, xlate_protocol in E. destruct (xget_list (oput_list acts)) as [(l, d)|] eqn:XL; [|discriminate].
  destruct (d =? 0); [discriminate|]. destruct ((0 <? M) && (M <? d)); [discriminate|]. replace (0 <? M) with true in E by (symmetry; apply Nat.ltb_lt; lia).
  injection E as EI _ _. rewrite <- EI. f_equal.
  assert (L : l = acts).
  { unfold xget_list in XL. rewrite list_read in XL by (intros a b c I; destruct (B a b c I) as (X & Y & Z); lia). destruct acts; [congruence|]. injection XL as <- _. reflexivity. }
  subst l. assert (RG : Forall (act_range M) acts) by (apply Forall_forall; intros ((a & b) & c) I; apply B; auto).
  pose proof (ppgfun_of_acts_ok M acts n RG) as TO2. rewrite (bytes_of_table M) by (auto; lia). apply (table_eq M); auto.
  intros a b c. rewrite (ppgfun_of_acts_spec M acts n RG DET). apply SP.
Qed.
Print Assumptions C87_from_id.

(** A domain that is too small is refused; one for an id, too. *)
Theorem C87_refused : forall be acts M override, acts <> [] -> acts_below 255 acts -> smallest_domain M acts -> 0 < override ->
  (override < M -> xlate be (XList (oput_list acts)) override = None) /\ forall s, xlate be (XId s) override = None.
Proof.
  intros be acts M override NE B SD OV. split.
  - intros L. destruct (C87_list acts NE B) as (D & E & DL & SD'). unfold xlate, xlate_protocol. rewrite E.
    assert (D = M) by (apply Nat.le_antisymm; [apply SD', SD|apply SD, SD']). subst D. destruct (M =? 0); auto.
    replace (0 <? override) with true by (symmetry; apply Nat.ltb_lt; lia). replace (override <? M) with true by (symmetry; apply Nat.ltb_lt; lia). reflexivity.
  - intros s. unfold xlate, xlate_protocol. replace (0 <? override) with true by (symmetry; apply Nat.ltb_lt; lia). reflexivity.
Qed.
Print Assumptions C87_refused.

(** ** Where the forms differ *)
(** Of two actions for the same values, the id keeps one, the list and the protocol file both. *)
Theorem C87_nondeterministic_refuted : exists acts o t, acts_below 2 acts /\ xlate true (XList (oput_list acts)) 0 = Some o /\
  xget_b64_ppgfun true (x_id o) = Some (2, t) /\ x_prot o = oput_protocon acts 2 /\ exists a b c, protocol_of acts a b c /\ ~ table_protocol 2 t a b c.
Proof.
  exists [(0, 0, 1); (0, 0, 0)]. eexists _, [0; 2; 2; 2]. split; [intros a b c [E|[E|[]]]; injection E as <- <- <-; lia|].
  split; [vm_compute; reflexivity|]. split; [vm_compute; reflexivity|]. split; [reflexivity|]. exists 0, 0, 1. split; [left; reflexivity|].
  intros (_ & _ & _ & H). discriminate.
Qed.
Print Assumptions C87_nondeterministic_refuted.

(** -domsz 256 makes actions: the mark for "no action" does not fit in a byte, and becomes the value 0. *)
Theorem C87_domsz_refuted : exists acts t, acts_below 2 acts /\ xlate_protocol true (XList (oput_list acts)) 256 = Some (acts, t, 256) /\
  exists a b c, table_protocol 256 t a b c /\ ~ protocol_of acts a b c.
Proof.
  exists [(0, 1, 1)], (map byte (ppgfun_of_acts [(0, 1, 1)] 256)). split; [intros a b c [E|[]]; injection E as <- <- <-; lia|]. split; [reflexivity|].
  exists 0, 0, 0. split; [|intros [E|[]]; discriminate]. unfold table_protocol. do 3 (split; [lia|]). change (0 * 256 + 0) with 0.
  rewrite nth_error_map. assert (X : nth_error (ppgfun_of_acts [(0, 1, 1)] 256) 0 = Some 256).
  { unfold ppgfun_of_acts. change (256 =? 0) with false. cbv iota. cbn [fold_left]. unfold put_act, id_of2. change (0 * 256 + 1) with 1. change (256 * 256) with (S (S (254 + 255 * 256))). reflexivity. }
  rewrite X. reflexivity.
Qed.
Print Assumptions C87_domsz_refuted.

(** ** A concrete case *)
(** Three-colouring from the right: 0,0 -> 1; 1,1 -> 2; 2,2 -> 0. *)
Definition col3 : list UniAct := [(0, 0, 1); (1, 1, 2); (2, 2, 0)].
Example C87_example : acts_below 3 col3 /\ smallest_domain 3 col3 /\ deterministic (protocol_of col3) /\
  xget_list (oput_list col3) = Some (col3, 3) /\
  match xlate true (XList (oput_list col3)) 0 with Some o => xlate true (XId (x_id o)) 0 = Some o | None => False end /\
  (exists net T, read_prot 4 (oput_protocon col3 3) = Some (net, T) /\ FmlaSpec.steps (t_direct T) [0; 0; 1; 2] [0; 1; 1; 2] /\
    ~ FmlaSpec.steps (t_direct T) [0; 0; 1; 2] [0; 2; 1; 2]).
Proof.
  assert (B : acts_below 3 col3) by (intros a b c [E|[E|[E|[]]]]; injection E as <- <- <-; lia).
  split; auto. split; [split; auto; intros M' H; destruct (H 1 1 2); [right; left; reflexivity|lia]|].
  split; [intros a b c d H1 H2; destruct H1 as [E|[E|[E|[]]]]; injection E as <- <- <-; destruct H2 as [E|[E|[E|[]]]]; injection E; intros; congruence|].
  split; [reflexivity|]. split; [vm_compute; reflexivity|].
  destruct (C87_prot_file 4 3 col3) as (net & T & E & V & _ & ST); [lia|lia|auto|]. exists net, T. split; auto. rewrite V in ST. split.
  - apply ST; [repeat constructor|repeat constructor|]. exists 1, 0, 0, 1. split; [reflexivity|]. split; [reflexivity|]. split; [left; reflexivity|reflexivity].
  - rewrite ST by repeat constructor. intros (p & a & b & c & E1 & E2 & P & E3).
    assert (PL : p < 4) by (apply (nth_error_Some [0; 0; 1; 2]); congruence).
    destruct p as [|[|[|[|p]]]]; [| | | |lia]; cbn in E1, E2, E3; injection E1 as <-; injection E2 as <-; try discriminate E3.
    injection E3 as <-. destruct P as [P|[P|[P|[]]]]; discriminate.
Qed.

(** A list without actions, or with a line of one or two numbers before its end, is refused. *)
Theorem C87_bad_list_refused : forall be override,
  xlate be (XList []) override = None /\ (forall rest, xlate be (XList ([] :: rest)) override = None) /\
  forall acts l rest, 1 <= List.length l <= 2 -> xlate be (XList (oput_list acts ++ l :: rest)) override = None.
Proof.
  intros be override. split; [reflexivity|]. split; [reflexivity|]. intros acts l rest L. unfold xlate, xlate_protocol, xget_list.
  assert (E : xget_triples (oput_list acts ++ l :: rest) = None); [|rewrite E; reflexivity].
  induction acts as [|((a & b) & c) acts IH]; cbn [oput_list map app xget_triples xget_triple].
  - destruct l as [|a [|b [|c l]]]; cbn in L; try lia; reflexivity.
  - fold (oput_list acts). rewrite IH. reflexivity.
Qed.
Print Assumptions C87_bad_list_refused.
Example C87_example_refused : xlate false (XList [[0; 1; 2]; [1; 2]]) 0 = None.
Proof. reflexivity. Qed.
