(** Proofs about whole command lines. *)
From Coq Require Import String List ZArith Bool Lia.
From Verif Require Import ExprModel InstModel InstSpec InstProofs.
Import ListNotations.
Local Open Scope string_scope.
Local Open Scope list_scope.

(** What holds of the options an instance is made from *)
Definition sound (o : popt) : Prop :=
  ordered (po_consts o) /\
  forall k m, assoc k (po_consts o) = Some m -> nm_shown m = nm_membs m /\ (nm_scalar m = true -> nm_membs m <> []).
Lemma sound0 : sound popt0.
Proof. split; [exact I|]. intros k m H. discriminate. Qed.
Lemma sound_define : forall k v o o', sound o -> define k v o = Some o' -> sound o'.
Proof.
  intros k v o o' [S1 S2] H. unfold define in H. destruct (parse_natmap v) as [m|] eqn:E; cbn in H; inversion H; subst o'; clear H.
  destruct (parse_numbers v m E) as (_ & P2 & P3). split; rewrite with_consts_consts.
  - apply put_ordered. exact S1.
  - intros k' m' H. rewrite assoc_put in H. destruct (String.eqb k' k); [inversion H; subst; auto|exact (S2 k' m' H)].
Qed.
Lemma sound_set : forall s o, sound o -> sound (handle_param_arg s o).
Proof. intros s [] H. destruct s; exact H. Qed.
Lemma sound_no_partial : forall o, sound o -> sound (no_partial o).
Proof. intros [] H. exact H. Qed.
Lemma sound_words : forall l o o', sound o -> param_words o l = Some o' -> sound o'.
Proof.
  induction l as [|[k v|s| |w] l IH]; intros o o' H E; cbn in E.
  - inversion E; subst; exact H.
  - destruct (define k v o) as [o1|] eqn:D; [|discriminate]. exact (IH _ _ (sound_define _ _ _ _ H D) E).
  - exact (IH _ _ (sound_set s o H) E).
  - exact (IH _ _ (sound_no_partial o H) E).
  - exact (IH _ _ H E).
Qed.
Lemma sound_all : forall d, sound d -> all_combinations d (fold_left push_values (po_consts d) [first_instance d]).
Proof. intros d [S1 S2]. apply push_all; [apply ordered_nodup; exact S1|]. intros k m E Es. exact (proj2 (S2 k m E) Es). Qed.

(** ** Options heard so far *)
Lemma last_def_snoc : forall k l w, last_def k (l ++ [w]) =
  match w with PDef k' v => if String.eqb k k' then Some v else last_def k l | _ => last_def k l end.
Proof.
  induction l as [|x l IH]; intros w; cbn.
  - destruct w; cbn; try reflexivity. 
  - rewrite IH. destruct x as [k1 v1|s| |u]; try reflexivity.
    destruct w as [k' v|s| |u]; try reflexivity. destruct (String.eqb k k'); reflexivity.
Qed.
Lemma last_max_snoc : forall l w, last_max (l ++ [w]) = match w with PSet (MaxNlayers n) => n | _ => last_max l end.
Proof.
  induction l as [|x l IH]; intros w; cbn [app last_max].
  - destruct w as [| [] | |]; reflexivity.
  - rewrite existsb_app, IH. destruct w as [k v|s| |u]; cbn [existsb orb]; try (rewrite orb_false_r; reflexivity).
    destruct s; cbn [orb]; try (rewrite orb_false_r; reflexivity). rewrite orb_true_r. reflexivity.
Qed.
Lemma in_snoc : forall (w x : pword) l, In x (l ++ [w]) <-> In x l \/ x = w.
Proof. intros w x l. rewrite in_app_iff. cbn. intuition. Qed.

Lemma says0 : says [] popt0.
Proof.
  unfold says, says_consts. cbn. repeat split; intros; try discriminate; try tauto; auto.
Qed.
Lemma says_define : forall l k v o o', says l o -> define k v o = Some o' -> says (l ++ [PDef k v]) o'.
Proof.
  intros l k v o o' (A & B1 & B2 & B3 & B4 & B5 & B6 & B7 & B8) H. unfold define in H.
  destruct (parse_natmap v) as [m|] eqn:E; cbn in H; inversion H; subst o'; clear H.
  destruct (parse_numbers v m E) as (P1 & _ & _).
  unfold says. rewrite !in_snoc, last_max_snoc, with_consts_consts. destruct o as [cs c p sy se u la st mx]; cbn in *.
  split; [|intuition congruence].
  intros k'. rewrite last_def_snoc, assoc_put. destruct (String.eqb k' k); [exists m; auto|]. exact (A k').
Qed.
Ltac setting_case := cbn in *; intuition congruence.
Lemma says_set : forall l s o, says l o -> says (l ++ [PSet s]) (handle_param_arg s o).
Proof.
  intros l s o (A & B1 & B2 & B3 & B4 & B5 & B6 & B7 & B8). unfold says. rewrite !in_snoc, last_max_snoc.
  assert (A' : says_consts (l ++ [PSet s]) (po_consts o)) by (intros k; rewrite last_def_snoc; exact (A k)).
  destruct o as [cs c p sy se u la st mx]. destruct s; (split; [exact A'|setting_case]).
Qed.
Lemma says_no_partial : forall l o, says l o -> says (l ++ [PNoPartial]) (no_partial o).
Proof.
  intros l o (A & B1 & B2 & B3 & B4 & B5 & B6 & B7 & B8). unfold says. rewrite !in_snoc, last_max_snoc.
  assert (A' : says_consts (l ++ [PNoPartial]) (po_consts o)) by (intros k; rewrite last_def_snoc; exact (A k)).
  destruct o as [cs c p sy se u la st mx]; (split; [exact A'|setting_case]).
Qed.
Lemma says_unknown : forall l w o, says l o -> says (l ++ [PUnknown w]) o.
Proof.
  intros l w o (A & B1 & B2 & B3 & B4 & B5 & B6 & B7 & B8). unfold says. rewrite !in_snoc, last_max_snoc.
  split; [intros k; rewrite last_def_snoc; exact (A k)|]. intuition congruence.
Qed.
Lemma says_words : forall l l0 o o', says l0 o -> param_words o l = Some o' -> says (l0 ++ l) o'.
Proof.
  induction l as [|w l IH]; intros l0 o o' H E.
  - cbn in E. inversion E; subst. rewrite app_nil_r. exact H.
  - replace (l0 ++ w :: l) with ((l0 ++ [w]) ++ l) by (rewrite <- app_assoc; reflexivity).
    destruct w as [k v|s| |u]; cbn in E.
    + destruct (define k v o) as [o1|] eqn:D; [|discriminate]. exact (IH _ _ _ (says_define _ _ _ _ _ H D) E).
    + exact (IH _ _ _ (says_set _ s _ H) E).
    + exact (IH _ _ _ (says_no_partial _ _ H) E).
    + exact (IH _ _ _ (says_unknown _ u _ H) E).
Qed.

Lemma heard_app : forall a b, heard (a ++ b) = heard a ++ heard b.
Proof. induction a as [|[] a IH]; intros b; cbn; rewrite ?IH; reflexivity. Qed.

Lemma read_words_app : forall a b c, read_words c (a ++ b) = match read_words c a with Some c' => read_words c' b | None => None end.
Proof. induction a as [|w a IH]; intros b c; cbn; [reflexivity|]. destruct (read_word c w); auto. Qed.

Definition heard_ok (pre : list word) (c : copts) : Prop := sound (co_def c) /\ says (heard pre) (co_def c).
Lemma heard_ok0 : heard_ok [] copts0.
Proof. split; [exact sound0|exact says0]. Qed.
Lemma heard_ok_word : forall pre c w c', heard_ok pre c -> read_word c w = Some c' -> heard_ok (pre ++ [w]) c'.
Proof.
  intros pre c w c' [H1 H2] E. unfold heard_ok. rewrite heard_app. destruct w as [k v|s|k v|l|]; cbn in E; cbn [heard].
  - destruct (define k v (co_def c)) as [d|] eqn:D; cbn in E; inversion E; subst c'. split; [exact (sound_define _ _ _ _ H1 D)|exact (says_define _ _ _ _ _ H2 D)].
  - inversion E; subst c'. split; [apply sound_set; exact H1|apply says_set; exact H2].
  - destruct (define k v (co_def c)) as [d|] eqn:D; cbn in E; inversion E; subst c'. cbn [co_def]. rewrite app_nil_r. split; assumption.
  - destruct (param_words (co_def c) l) as [d|] eqn:D; cbn in E; inversion E; subst c'. cbn [co_def]. rewrite app_nil_r. split; assumption.
  - inversion E; subst c'. cbn [co_def]. rewrite app_nil_r. split; assumption.
Qed.
Lemma heard_ok_words : forall line pre c c', heard_ok pre c -> read_words c line = Some c' -> heard_ok (pre ++ line) c'.
Proof.
  induction line as [|w line IH]; intros pre c c' H E; cbn in E.
  - inversion E; subst. rewrite app_nil_r. exact H.
  - destruct (read_word c w) as [c1|] eqn:D; [|discriminate]. pose proof (IH _ _ _ (heard_ok_word _ _ _ _ H D) E) as Q.
    rewrite <- app_assoc in Q. exact Q.
Qed.

Definition made (reqs : list (list pword)) (l : list popt) : Prop :=
  exists ds news, Forall2 (fun r d => says r d /\ sound d) reqs ds /\ Forall2 all_combinations ds news /\ l = concat news /\
    Forall2 (fun d new => new = fold_left push_values (po_consts d) [first_instance d]) ds news.
Lemma made_one : forall r d, says r d -> sound d -> made [r] (fold_left push_values (po_consts d) [first_instance d]).
Proof.
  intros r d H1 H2. exists [d], [fold_left push_values (po_consts d) [first_instance d]].
  split; [constructor; [split; assumption|constructor]|]. split; [constructor; [apply sound_all; exact H2|constructor]|].
  split; [cbn [concat]; rewrite app_nil_r; reflexivity|constructor; [reflexivity|constructor]].
Qed.
Lemma made_app : forall r1 r2 l1 l2, made r1 l1 -> made r2 l2 -> made (r1 ++ r2) (l1 ++ l2).
Proof.
  intros r1 r2 l1 l2 (d1 & n1 & A1 & B1 & C1 & D1) (d2 & n2 & A2 & B2 & C2 & D2). exists (d1 ++ d2), (n1 ++ n2).
  split; [apply Forall2_app; auto|split; [apply Forall2_app; auto|split; [rewrite concat_app; congruence|apply Forall2_app; auto]]].
Qed.
Lemma read_requests : forall line pre c c', heard_ok pre c -> read_words c line = Some c' ->
  exists l, co_insts c' = co_insts c ++ l /\ made (requests_after pre line) l.
Proof.
  induction line as [|w line IH]; intros pre c c' H E; cbn in E.
  - inversion E; subst. exists []. rewrite app_nil_r. split; [reflexivity|]. exists [], []. repeat split; constructor.
  - destruct (read_word c w) as [c1|] eqn:D; [|discriminate].
    destruct (IH _ _ _ (heard_ok_word _ _ _ _ H D) E) as (l & E1 & M). cbn [requests_after]. destruct H as [H1 H2].
    destruct w as [k v|s|k v|own|]; cbn in D.
    + destruct (define k v (co_def c)) as [d|]; cbn in D; inversion D; subst c1. exists l. split; [exact E1|exact M].
    + inversion D; subst c1. exists l. split; [exact E1|exact M].
    + destruct (define k v (co_def c)) as [d|] eqn:Df; cbn in D; inversion D; subst c1. cbn in E1. unfold push_instances in E1.
      exists (fold_left push_values (po_consts d) [first_instance d] ++ l). split; [rewrite E1, <- app_assoc; reflexivity|].
      apply made_app; [|exact M]. apply made_one; [exact (says_define _ _ _ _ _ H2 Df)|exact (sound_define _ _ _ _ H1 Df)].
    + destruct (param_words (co_def c) own) as [d|] eqn:Df; cbn in D; inversion D; subst c1. cbn in E1. unfold push_instances in E1.
      exists (fold_left push_values (po_consts d) [first_instance d] ++ l). split; [rewrite E1, <- app_assoc; reflexivity|].
      apply made_app; [|exact M]. apply made_one; [exact (says_words _ _ _ _ H2 Df)|exact (sound_words _ _ _ H1 Df)].
    + inversion D; subst c1. exists l. split; [exact E1|exact M].
Qed.
Lemma made_nonempty : forall r l, made r l -> r <> [] -> l <> [].
Proof.
  intros r l (ds & news & A & B & C & _) N. destruct A as [|r1 d1 rs ds _ A]; [congruence|].
  inversion B as [|? n1 ? ns B1 B2]; subst. destruct B1 as (_ & _ & _ & _ & Q). cbn. intros E. apply app_eq_nil in E. exact (Q (proj1 E)).
Qed.
Lemma line_made : forall line c, read_line line = Some c -> made (requests line) (co_insts c).
Proof.
  intros line c H. unfold read_line in H. destruct (read_words copts0 line) as [c0|] eqn:E; [|discriminate].
  destruct (read_requests _ _ _ _ heard_ok0 E) as (l & E1 & M). cbn in E1.
  destruct (heard_ok_words _ _ _ _ heard_ok0 E) as [K1 K2]. cbn [app] in K2.
  unfold requests. destruct (requests_after [] line) as [|r rs] eqn:R.
  - destruct M as (ds & news & A & B & C & _). inversion A; subst ds. inversion B; subst news. cbn in C. rewrite C in E1. rewrite E1 in H.
    inversion H; subst c. cbn. apply made_one; assumption.
  - rewrite E1 in H. assert (N : l <> []) by (apply (made_nonempty _ _ M); discriminate).
    destruct l as [|o l]; [congruence|]. inversion H; subst c. rewrite E1. exact M.
Qed.

(** ** Accepted lines *)
Lemma define_ok : forall k v o, define k v o <> None <-> good_text v.
Proof. intros k v o. rewrite <- parse_good. unfold define. destruct (parse_natmap v); cbn; split; congruence. Qed.
Lemma param_words_ok : forall l o, param_words o l <> None <-> Forall good_text (word_texts (WParams l)).
Proof.
  induction l as [|[k v|s| |u] l IH]; intros o; cbn; try exact (IH _).
  - split; [constructor|discriminate].
  - pose proof (define_ok k v o) as D. rewrite Forall_cons_iff, <- D. destruct (define k v o) as [o1|].
    + rewrite IH. cbn. split; [intros H; split; [discriminate|exact H]|tauto].
    + split; [congruence|intros [H _]; congruence].
Qed.
Lemma read_words_ok : forall line c, read_words c line <> None <-> Forall good_text (flat_map word_texts line).
Proof.
  induction line as [|w line IH]; intros c; cbn [read_words flat_map].
  - split; [constructor|discriminate].
  - rewrite Forall_app. assert (W : read_word c w <> None <-> Forall good_text (word_texts w)).
    { destruct w as [k v|s|k v|l|]; cbn [read_word].
      - pose proof (define_ok k v (co_def c)) as D. cbn. rewrite Forall_cons_iff, <- D. destruct (define k v (co_def c)); cbn; split; intros H; try congruence; [split; [discriminate|constructor]|destruct H; congruence].
      - cbn. split; [constructor|discriminate].
      - pose proof (define_ok k v (co_def c)) as D. cbn. rewrite Forall_cons_iff, <- D. destruct (define k v (co_def c)); cbn; split; intros H; try congruence; [split; [discriminate|constructor]|destruct H; congruence].
      - rewrite <- (param_words_ok l (co_def c)). destruct (param_words (co_def c) l); cbn; split; congruence.
      - cbn. split; [constructor|discriminate]. }
    rewrite <- W. destruct (read_word c w) as [c1|]; [rewrite IH|]; split; intros H; try congruence; [split; [discriminate|exact H]|exact (proj2 H)|destruct H; congruence].
Qed.

(** ** The file *)
Lemma file_kept : forall line c c', read_words c line = Some c' -> ~ In WFile line -> co_file c' = co_file c.
Proof.
  induction line as [|w line IH]; intros c c' E N; cbn in E; [congruence|].
  destruct (read_word c w) as [c1|] eqn:D; [|discriminate]. rewrite (IH _ _ E) by (intros I; apply N; right; exact I).
  destruct w; cbn in D.
  - destruct (define k v (co_def c)); cbn in D; inversion D; reflexivity.
  - inversion D; reflexivity.
  - destruct (define k v (co_def c)); cbn in D; inversion D; reflexivity.
  - destruct (param_words (co_def c) l); cbn in D; inversion D; reflexivity.
  - destruct N. left. reflexivity.
Qed.
Lemma read_line_file : forall line c, read_line line = Some c -> exists c0, read_words copts0 line = Some c0 /\ co_file c = co_file c0.
Proof.
  intros line c H. unfold read_line in H. destruct (read_words copts0 line) as [c0|]; [|discriminate]. exists c0. split; [reflexivity|].
  inversion H. destruct (co_insts c0); reflexivity.
Qed.
Lemma file_says : forall pre post c, read_line (pre ++ WFile :: post) = Some c -> ~ In WFile post -> says_consts (heard pre) (co_file c).
Proof.
  intros pre post c H N. destruct (read_line_file _ _ H) as (c0 & E & F). rewrite F. rewrite read_words_app in E.
  destruct (read_words copts0 pre) as [c1|] eqn:P; [|discriminate]. cbn in E. rewrite (file_kept _ _ _ E N). cbn.
  destruct (heard_ok_words _ _ _ _ heard_ok0 P) as [_ Q]. exact (proj1 Q).
Qed.

(** ** What is written *)
Definition written_ok (o : popt) : Prop := forall k m, assoc k (po_consts o) = Some m -> hd_error (nm_shown m) = hd_error (nm_membs m).
Lemma push_written : forall qs l, (forall o, In o l -> written_ok o) -> forall o, In o (fold_left push_values qs l) -> written_ok o.
Proof.
  induction qs as [|(k, m) qs IH]; intros l H o Ho; cbn [fold_left] in Ho; [exact (H o Ho)|].
  apply (IH _) in Ho; [exact Ho|]. clear o Ho IH. intros o Ho. unfold push_values in Ho. cbn [fst snd] in Ho.
  destruct (nm_scalar m); [|exact (H o Ho)]. apply in_app_or in Ho. destruct Ho as [Ho|Ho]; [exact (H o Ho)|].
  apply in_flat_map in Ho. destruct Ho as (x & _ & Ho). unfold set_in_all in Ho. apply in_map_iff in Ho. destruct Ho as (o' & <- & Ho').
  intros k' m' E. rewrite with_consts_consts, assoc_put in E. destruct (String.eqb k' k); [inversion E; subst; reflexivity|exact (H o' Ho' k' m' E)].
Qed.
Lemma first_written : forall d, sound d -> written_ok (first_instance d).
Proof.
  intros d [_ S] k m E. unfold first_instance in E. rewrite with_consts_consts, (assoc_map _ _ cut) in E.
  destruct (assoc k (po_consts d)) as [m0|] eqn:A; cbn in E; inversion E; subst m. destruct (S k m0 A) as [S1 _].
  unfold cut. destruct (nm_scalar m0); cbn; rewrite S1; [|reflexivity]. destruct (nm_membs m0); reflexivity.
Qed.
Lemma line_written : forall line c o, read_line line = Some c -> In o (co_insts c) -> written_ok o.
Proof.
  intros line c o H Ho. destruct (line_made _ _ H) as (ds & news & A & _ & C & D). rewrite C in Ho. clear C H.
  apply in_concat in Ho. destruct Ho as (new & Hn & Ho). revert Hn. induction A as [|r d rs ds [_ Sd] A IH] in news, D |- *; inversion D as [|? n1 ? ns D1 D2]; subst; intros Hn; [destruct Hn|].
  destruct Hn as [Hn|Hn]; [|exact (IH _ D2 Hn)]. subst new. apply (push_written (po_consts d) [first_instance d]); [|exact Ho].
  intros x [<-|[]]. apply first_written. exact Sd.
Qed.
