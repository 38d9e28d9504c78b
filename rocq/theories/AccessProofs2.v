(** The text of declared accesses reads back. *)
From Coq Require Import String List Arith Bool ZArith Lia.
From Verif Require Import FmlaModel IntModel ExprModel ExprSpec ActModel NetModel CmdModel ParseModel ParseSpec ParseProofs ParseProofs2 ParseProofs3 ParseProofs4
  AccessModel AccessSpec AccessProofs.
Import ListNotations.
Local Open Scope list_scope.

Lemma expand_none : forall n text e int, expand n text [] int e = Some e.
Proof.
  intros n text e. destruct n; induction e; simpl; intros int; try (destruct (int || text); reflexivity);
  rewrite ?IHe, ?IHe1, ?IHe2, ?IHe3; reflexivity.
Qed.
(** ** Positions *)
Lemma rows_range : forall m base n i, existsb (existsb (Nat.eqb i)) (block_rows base n m) = true <-> base <= i < base + n * m.
Proof.
  induction m; intros base n i; simpl.
  - split; [discriminate|lia].
  - rewrite orb_true_iff, IHm, existsb_exists. replace (base + n * S m) with (base + n + n * m) by lia. split.
    + intros [(j & J & E)|H]; [|lia]. apply Nat.eqb_eq in E; subst j. apply in_seq in J. lia.
    + intros H. destruct (Nat.lt_ge_cases i (base + n)); [left|right; lia]. exists i. split; [apply in_seq; lia|apply Nat.eqb_refl].
Qed.
Lemma rows_length : forall m base n, length (block_rows base n m) = m.
Proof. induction m; intros; simpl; auto. Qed.
Lemma texts_range : forall ds base k i, In k (block_texts base ds) -> elem_ck k i = true -> base <= i.
Proof.
  induction ds as [|[r|names vals vs] ds IH]; simpl; intros base k i H E; [destruct H|pose proof (IH _ _ _ H E); lia|].
  destruct H as [<-|H]; [|pose proof (IH _ _ _ H E); lia]. unfold elem_ck in E. simpl in E. apply rows_range in E. lia.
Qed.
Definition before (base : nat) (ks : list link_text) : Prop := forall k i, In k ks -> base <= i -> elem_ck k i = false.
Lemma find_app : forall A (f : A -> bool) l l', find f (l ++ l') = match find f l with Some x => Some x | None => find f l' end.
Proof. induction l; intros l'; simpl; auto. destruct (f a); auto. Qed.
Lemma find_none : forall A (f : A -> bool) l, (forall x, In x l -> f x = false) -> find f l = None.
Proof. induction l; simpl; intros H; auto. rewrite H; auto. Qed.

Definition ty (sl : slot) : atype * string := (sl_type sl, sl_array sl).
Lemma slot_ty : forall L r sl, slot_of L r = Some sl -> ty sl = fst r.
Proof.
  intros L [[t x] i] sl H. unfold slot_of in H. destruct (expanded false L i); [|discriminate]. destruct (expanded true L i); [|discriminate]. injection H as <-. reflexivity.
Qed.
Lemma block_ty : forall names vals vs sls, decl_slots (PLinks names vals vs) = Some sls -> map ty sls = flat_map (fun r : vref => repeat (fst r) (length vals)) vs.
Proof.
  intros names vals vs sls H. unfold decl_slots in H. apply all_parsed_some in H. revert sls H. induction vs as [|r vs IH]; intros sls H; simpl in H.
  - destruct sls; [reflexivity|discriminate].
  - assert (X : exists s1 s2, sls = s1 ++ s2 /\ map (fun tuple => match tuple_lets names tuple with Some L => slot_of L r | None => None end) vals = map Some s1 /\
      flat_map (fun r => map (fun tuple => match tuple_lets names tuple with Some L => slot_of L r | None => None end) vals) vs = map Some s2).
    { symmetry in H. apply map_eq_app in H. destruct H as (s1 & s2 & -> & H1 & H2). eauto. }
    destruct X as (s1 & s2 & -> & H1 & H2). rewrite map_app, (IH _ H2). simpl. f_equal. clear - H1. revert s1 H1.
    induction vals as [|v vals IHv]; intros [|sl s1] H1; simpl in *; try discriminate; auto. injection H1 as H1 H2. rewrite (IHv _ H2). f_equal.
    destruct (tuple_lets names v); [|discriminate]. eapply slot_ty; eauto.
Qed.

Definition print_vref (r : vref) : list tok := print_ref (fst (fst r)) (snd (fst r)) (snd r).
Definition print_decl (d : pdecl) : list tok :=
  match d with
  | PAccess r => print_vref r
  | PLinks names vals vs =>
      TWord "symmetric" :: let_text names ++ TIn :: TWord "{#" :: multiset_text names vals
        ++ TWord "#}" :: TWord "{" :: concat (map print_vref vs) ++ [TWord "}"]
  end.
Lemma block_lines : forall sls n (vs : list vref) base, 0 < n -> (forall r, r < length vs -> nth_error (map ty sls) (base + r * n) = nth_error (map fst vs) r) ->
  concat (map (fun ri => match nth_error sls (nth 0 (fst ri) 0) with
                         | Some sl => print_ref (sl_type sl) (sl_array sl) (snd ri) | None => [] end)
              (combine (block_rows base n (length vs)) (map snd vs))) = concat (map print_vref vs).
Proof.
  intros sls n. induction vs as [|r vs IH]; intros base N H; [reflexivity|]. cbn [length block_rows map combine concat fst snd]. apply f_equal2.
  - specialize (H 0 ltac:(simpl; lia)). simpl in H. rewrite Nat.add_0_r in H. destruct n; [lia|]. simpl. rewrite nth_error_map in H.
    destruct (nth_error sls base) as [sl|]; [|discriminate]. simpl in H. injection H as H. destruct r as [[t x] i]. simpl in *. unfold ty in H. injection H as <- <-. reflexivity.
  - apply IH; auto. intros r0 R. specialize (H (S r0) ltac:(simpl; lia)). simpl in H. rewrite <- H. f_equal. lia.
Qed.
Lemma flat_repeat : forall (vs : list vref) n r rest, r < length vs -> 0 < n ->
  nth_error (flat_map (fun r => repeat (fst r) n) vs ++ rest) (r * n) = nth_error (map fst vs) r.
Proof.
  induction vs as [|v vs IH]; intros n r rest R N; simpl in R; [lia|]. destruct r; simpl.
  - destruct n; [lia|]. reflexivity.
  - rewrite <- app_assoc. rewrite nth_error_app2; rewrite repeat_length; [|lia]. replace (n + r * n - n) with (r * n) by lia. apply IH; auto; lia.
Qed.
Lemma flat_repeat_length : forall (vs : list vref) n, length (flat_map (fun r : vref => repeat (fst r) n) vs) = n * length vs.
Proof. induction vs; intros n; simpl; [lia|]. rewrite app_length, repeat_length, IHvs. lia. Qed.
Definition full (d : pdecl) : Prop := match d with PAccess _ => True | PLinks _ vals vs => vals <> [] /\ vs <> [] end.
Lemma vbls_text_decls : forall ds sls0 sls1 pre n, all_slots ds = Some sls1 -> Forall full ds -> before (length sls0) pre -> length sls1 <= n ->
  vbls_text n (sls0 ++ sls1) (pre ++ block_texts (length sls0) ds) (length sls0) = concat (map print_decl ds).
Proof.
  induction ds as [|d ds IH]; intros sls0 sls1 pre n A FU B N; cbn [all_slots fold_right] in A.
  - injection A as <-. destruct n; simpl; auto. rewrite (proj2 (nth_error_None _ _)); auto. rewrite app_length; simpl; lia.
  - fold (all_slots ds) in A. inversion FU as [|? ? FU1 FU2]; subst. destruct (decl_slots d) as [sa|] eqn:D; [|discriminate]. destruct (all_slots ds) as [sb|] eqn:E; [|discriminate].
    cbn in A. injection A as <-. destruct d as [r|names vals vs].
    + simpl in D. destruct (slot_of [] r) as [sl|] eqn:SO; [|discriminate]. injection D as <-. simpl in N. destruct n; [lia|]. cbn [vbls_text block_texts].
      rewrite nth_error_app2, Nat.sub_diag by lia. cbn [app nth_error].
      rewrite find_app, (find_none _ _ pre) by (intros k K; apply B; auto).
      rewrite find_none.
      * cbn [map concat print_decl]. f_equal.
        -- destruct r as [[t x] i]. unfold slot_of, expanded in SO. rewrite !expand_none in SO. injection SO as <-. reflexivity.
        -- replace (S (length sls0)) with (length (sls0 ++ [sl])) by (rewrite app_length; simpl; lia).
           replace (sls0 ++ sl :: sb) with ((sls0 ++ [sl]) ++ sb) by (rewrite <- app_assoc; reflexivity).
           apply IH; auto; [|lia]. intros k i K I. apply B; auto. rewrite app_length in I. simpl in I. lia.
      * intros k K. destruct (elem_ck k (length sls0)) eqn:EL; auto. pose proof (texts_range _ _ _ _ K EL). lia.
    + pose proof (block_ty _ _ _ _ D) as T. destruct FU1 as [V1 V2].
      assert (LV : 0 < length vals) by (destruct vals; [contradiction|simpl; lia]). assert (LS : 0 < length vs) by (destruct vs; [contradiction|simpl; lia]).
      assert (LA : length sa = length vals * length vs) by (rewrite <- (map_length ty), T, flat_repeat_length; auto).
      rewrite app_length in N. assert (0 < length vals * length vs) by (apply Nat.mul_pos_pos; auto). destruct n; [lia|]. cbn [vbls_text block_texts].
      assert (X : nth_error (sls0 ++ sa ++ sb) (length sls0) <> None) by (apply nth_error_Some; rewrite !app_length; lia).
      destruct (nth_error (sls0 ++ sa ++ sb) (length sls0)) as [sl|] eqn:NE; [|contradiction]. clear X.
      rewrite find_app, (find_none _ _ pre) by (intros k K; apply B; auto). set (k0 := mkLinkText (block_rows (length sls0) (length vals) (length vs)) names vals (map snd vs)).
      assert (E0 : elem_ck k0 (length sls0) = true) by (unfold elem_ck; cbn [k0 lt_rows]; apply rows_range; lia).
      cbn [find]. rewrite E0. cbn [map concat]. f_equal.
      * unfold block_text, k0. cbn [lt_rows lt_names lt_vals lt_indices print_decl].
        apply f_equal. apply f_equal2; [reflexivity|]. apply f_equal. apply f_equal. apply f_equal2; [reflexivity|]. apply f_equal. apply f_equal.
        apply f_equal2; [|reflexivity]. apply block_lines; auto.
        intros r R. rewrite !map_app, T. rewrite nth_error_app2; rewrite map_length; [|lia]. replace (length sls0 + r * length vals - length sls0) with (r * length vals) by lia.
        apply flat_repeat; auto.
      * unfold k0. cbn [lt_rows]. rewrite rows_length. replace (length (nth 0 (block_rows (length sls0) (length vals) (length vs)) [])) with (length vals)
          by (destruct vs; [simpl in LS; lia|simpl; rewrite seq_length; auto]).
        replace (length sls0 + length vals * length vs) with (length (sls0 ++ sa)) by (rewrite app_length; lia).
        rewrite (app_assoc sls0). fold k0. replace (pre ++ k0 :: block_texts (length (sls0 ++ sa)) ds) with ((pre ++ [k0]) ++ block_texts (length (sls0 ++ sa)) ds) by (rewrite <- app_assoc; reflexivity).
        apply IH; auto; [|lia]. intros k i K I. rewrite app_length in I. apply in_app_or in K. destruct K as [K|[<-|[]]]; [apply B; auto; lia|].
        destruct (elem_ck k0 i) eqn:EL; auto. unfold elem_ck in EL. cbn [k0 lt_rows] in EL. apply rows_range in EL. lia.
Qed.
Lemma written_decls : forall ds sls, all_slots ds = Some sls -> Forall full ds -> written_vbls ds sls = concat (map print_decl ds).
Proof. intros ds sls A FU. unfold written_vbls. apply (vbls_text_decls ds [] sls [] (length sls)); auto. intros k i []. Qed.

(** ** Reading *)
Section Read.
Variable preds : list string.
Definition nice (e : sexp) : Prop := raw preds e /\ iffs_apart e.
Definition ends (r : list tok) : Prop := tstop 10 r.
Lemma take_nice : forall e rest, nice e -> ends rest -> take_expr preds (print e ++ rest) = Some (e, rest).
Proof. intros e rest [H1 H2] H3. apply take_back; auto. Qed.
Lemma word_type_of : forall t, word_type (type_word t) = Some t.
Proof. destruct t; reflexivity. Qed.
Lemma take_one : forall t x i rest, nice i -> take_accesses preds (print_ref t x i ++ rest) = Some ([(t, x, i)], rest).
Proof.
  intros t x i rest [H1 H2]. unfold take_accesses, print_ref. rewrite <- app_comm_cons. rewrite word_type_of. rewrite <- app_assoc, take_ref_back by auto. reflexivity.
Qed.
Lemma ref_length : forall r, 1 <= length (print_vref r).
Proof. intros [[t x] i]. simpl. lia. Qed.
Lemma more_back : forall vs n rest, length vs <= n -> Forall (fun r : vref => nice (snd r)) vs -> take_accesses preds rest = None ->
  more_accesses preds n (concat (map print_vref vs) ++ rest) = (vs, rest).
Proof.
  induction vs as [|[[t x] i] vs IH]; intros n rest L H R; simpl in L.
  - destruct n; simpl; auto. rewrite R. reflexivity.
  - destruct n; [lia|]. inversion H; subst. cbn [map concat more_accesses]. rewrite <- app_assoc. unfold print_vref at 1. cbn [fst snd]. rewrite take_one by auto.
    rewrite (IH n rest); [reflexivity|lia|auto|auto].
Qed.
Lemma refs_length : forall vs, length vs <= length (concat (map print_vref vs)).
Proof. induction vs; simpl; [lia|]. rewrite app_length. pose proof (ref_length a). lia. Qed.

Lemma commas_cons : forall x y l, commas (x :: y :: l) = x ++ TComma :: commas (y :: l).
Proof. reflexivity. Qed.
Definition no_comma (r : list tok) : Prop := match r with TComma :: _ => False | _ => True end.
Lemma more_names_back : forall xs n x0 rest, length xs <= n -> no_comma rest ->
  exists ts, commas (map (fun x => [TId x]) (x0 :: xs)) ++ rest = TId x0 :: ts /\ more_names n ts = (xs, rest).
Proof.
  induction xs as [|x xs IH]; intros n x0 rest L R; simpl in L.
  - exists rest. split; auto. destruct n; simpl; auto. destruct rest as [|t r]; auto. destruct t; auto. contradiction.
  - destruct n; [lia|]. destruct (IH n x rest ltac:(lia) R) as (ts & E & M). cbn [map]. rewrite commas_cons. exists (TComma :: TId x :: ts).
    split; [|cbn [more_names]; rewrite M; reflexivity]. cbn [map] in E. rewrite <- app_assoc. simpl. f_equal. f_equal. exact E.
Qed.
Lemma more_exprs_back : forall es n e0 rest, length es <= n -> Forall nice (e0 :: es) -> ends rest -> no_comma rest ->
  exists ts, take_expr preds (commas (map print (e0 :: es)) ++ rest) = Some (e0, ts) /\ more_exprs preds n ts = (es, rest) /\ length es <= length ts.
Proof.
  induction es as [|e es IH]; intros n e0 rest L H R C; simpl in L; inversion H as [|? ? H1 H2]; subst.
  - exists rest. simpl. rewrite take_nice by auto. split; auto. split; [|lia]. destruct n; simpl; auto. destruct rest as [|t r]; auto. destruct t; auto. contradiction.
  - destruct n; [lia|]. destruct (IH n e rest ltac:(lia) H2 R C) as (ts & E & M & LT). cbn [map]. rewrite commas_cons, <- app_assoc. cbn [app].
    eexists. split; [apply take_nice; auto; simpl; unfold ends; simpl; lia|]. split.
    + cbn [more_exprs]. cbn [map] in E. rewrite E, M. reflexivity.
    + assert (LE : forall l, length l <= length (commas (map print l))).
      { induction l as [|a l IHl]; [simpl; lia|]. pose proof (print_nonempty a). destruct l as [|b l].
        - simpl. destruct (print a); [contradiction|simpl; lia].
        - cbn [map]. rewrite commas_cons, app_length. cbn [length map] in *. lia. }
      specialize (LE (e :: es)). cbn [length map] in *. rewrite app_length. lia.
Qed.
Definition nice_tuple (t : list sexp) : Prop := t <> [] /\ Forall nice t.
Definition print_tuple (t : list sexp) : list tok := TLp :: commas (map print t) ++ [TRp].
Lemma value_list_back : forall t rest, nice_tuple t -> value_list preds (print_tuple t ++ rest) = Some (t, rest).
Proof.
  intros [|e es] rest [NE H]; [contradiction|]. unfold print_tuple. rewrite <- app_comm_cons, <- app_assoc. cbn [app value_list].
  destruct (more_exprs_back es (length es) e (TRp :: rest)) as (ts & E & _ & L); auto; [unfold ends; simpl; lia|exact I|].
  destruct (more_exprs_back es (length ts) e (TRp :: rest)) as (ts' & E' & M & _); auto; [unfold ends; simpl; lia|exact I|].
  rewrite E in E'. injection E' as <-. rewrite E, M. reflexivity.
Qed.
Lemma more_lists_back : forall l n t0 rest, length l <= n -> Forall nice_tuple (t0 :: l) -> no_comma rest ->
  exists ts, value_list preds (commas (map print_tuple (t0 :: l)) ++ rest) = Some (t0, ts) /\ more_lists preds n ts = (l, rest) /\ length l <= length ts.
Proof.
  induction l as [|t l IH]; intros n t0 rest L H C; simpl in L; inversion H as [|? ? H1 H2]; subst.
  - exists rest. cbn [map commas]. rewrite value_list_back by auto. split; auto. split; [|simpl; lia]. destruct n; simpl; auto. destruct rest as [|w r]; auto. destruct w; auto. contradiction.
  - destruct n; [lia|]. destruct (IH n t rest ltac:(lia) H2 C) as (ts & E & M & LT). cbn [map]. rewrite commas_cons, <- app_assoc. cbn [app].
    eexists. split; [apply value_list_back; auto|]. split.
    + cbn [more_lists]. cbn [map] in E. rewrite E, M. reflexivity.
    + assert (LE : forall l, length l <= length (commas (map print_tuple l))).
      { induction l0 as [|a l0 IHl]; [simpl; lia|]. destruct l0 as [|b l0].
        - simpl. lia.
        - cbn [map]. rewrite commas_cons, app_length. cbn [length map] in *. lia. }
      specialize (LE (t :: l)). cbn [length map] in *. rewrite app_length. lia.
Qed.
Definition nice_lets (names : list string) (vals : list (list sexp)) : Prop :=
  names <> [] /\ vals <> [] /\ Forall (fun t => length t = length names /\ Forall nice t) vals.
Lemma lets_back : forall names vals rest, nice_lets names vals ->
  take_lets preds (let_text names ++ TIn :: TWord "{#" :: multiset_text names vals ++ TWord "#}" :: rest) = Some (names, vals, TWord "#}" :: rest).
Proof.
  intros names vals rest (N1 & N2 & H). destruct names as [|x names]; [contradiction|]. destruct vals as [|t0 vals]; [contradiction|]. destruct names as [|y names].
  - (* one name *)
    assert (SING : exists e0 es, t0 :: vals = map (fun e => [e]) (e0 :: es) /\ Forall nice (e0 :: es)).
    { assert (G : forall l, Forall (fun t => length t = 1 /\ Forall nice t) l -> exists es, l = map (fun e => [e]) es /\ Forall nice es).
      { clear. induction l as [|t l IH]; intros H; [exists []; auto|]. inversion H as [|? ? [L F] H2]; subst. destruct (IH H2) as (es & -> & FE).
        destruct t as [|e [|]]; try discriminate. inversion F; subst. exists (e :: es). split; auto. }
      destruct (G _ H) as ([|e0 es] & E & FE); [discriminate|]. eauto. }
    destruct SING as (e0 & es & -> & FE). cbn [let_text app take_lets multiset_text]. rewrite String.eqb_refl. rewrite map_map.
    change (map (fun x0 : sexp => print x0) (e0 :: es)) with (map print (e0 :: es)).
    destruct (more_exprs_back es (length es) e0 (TWord "#}" :: rest)) as (ts & E & _ & L); auto; [unfold ends; simpl; lia|exact I|].
    destruct (more_exprs_back es (length ts) e0 (TWord "#}" :: rest)) as (ts' & E' & M & _); auto; [unfold ends; simpl; lia|exact I|].
    rewrite E in E'. injection E' as <-. rewrite E, M. reflexivity.
  - cbn [let_text multiset_text]. rewrite <- app_comm_cons, <- app_assoc. cbn [app].
    set (rest1 := TRp :: TIn :: TWord "{#" :: commas (map print_tuple (t0 :: vals)) ++ TWord "#}" :: rest).
    assert (L0 : forall ts, commas (map (fun x => [TId x]) (x :: y :: names)) ++ rest1 = TId x :: ts -> length (y :: names) <= length ts).
    { intros ts E. assert (LE : forall l, length l <= length (commas (map (fun x => [TId x]) l))).
      { induction l as [|a l IHl]; [simpl; lia|]. destruct l as [|b l]; [simpl; lia|]. cbn [map]. rewrite commas_cons, app_length. cbn [length map] in *. lia. }
      specialize (LE (x :: y :: names)). apply (f_equal (@length tok)) in E. rewrite app_length in E. cbn [length] in *. lia. }
    destruct (more_names_back (y :: names) (length (y :: names)) x rest1) as (ts & E & _); [lia|exact I|].
    destruct (more_names_back (y :: names) (length ts) x rest1) as (ts' & E' & M); [apply L0; auto|exact I|].
    assert (ts' = ts) by congruence. subst ts'.
    match goal with |- take_lets preds (TLp :: ?u) = _ => replace u with (TId x :: ts) end. cbn [take_lets]. rewrite M. unfold rest1. rewrite String.eqb_refl.
    assert (NT : Forall nice_tuple (t0 :: vals)). { eapply Forall_impl; [|exact H]. intros t [LT FT]. split; auto. destruct t; [discriminate|]. discriminate. }
    destruct (more_lists_back vals (length vals) t0 (TWord "#}" :: rest)) as (us & EU & _ & LU); auto; [exact I|].
    destruct (more_lists_back vals (length us) t0 (TWord "#}" :: rest)) as (us' & EU' & MU & _); auto; [exact I|].
    rewrite EU in EU'. injection EU' as <-. rewrite EU, MU. reflexivity.
Qed.
Definition nice_decl (d : pdecl) : Prop :=
  match d with
  | PAccess r => nice (snd r)
  | PLinks names vals vs => nice_lets names vals /\ vs <> [] /\ Forall (fun r : vref => nice (snd r)) vs
  end.
Lemma decl_back : forall d rest, nice_decl d -> take_decl preds (print_decl d ++ rest) = Some ([d], rest).
Proof.
  intros [[[t x] i]|names vals vs] rest H; unfold take_decl.
  - cbn [print_decl]. unfold print_vref. cbn [fst snd]. rewrite take_one by auto. reflexivity.
  - destruct H as (NL & NV & FV). cbn [print_decl].
    assert (NA : take_accesses preds ((TWord "symmetric" :: let_text names ++ TIn :: TWord "{#" :: multiset_text names vals ++ TWord "#}" :: TWord "{" :: concat (map print_vref vs) ++ [TWord "}"]) ++ rest) = None) by reflexivity.
    rewrite NA. clear NA. rewrite <- app_comm_cons. unfold take_links. cbn [word_is String.eqb Ascii.eqb Bool.eqb].
    replace ((let_text names ++ TIn :: TWord "{#" :: multiset_text names vals ++ TWord "#}" :: TWord "{" :: concat (map print_vref vs) ++ [TWord "}"]) ++ rest)
      with (let_text names ++ TIn :: TWord "{#" :: multiset_text names vals ++ TWord "#}" :: (TWord "{" :: concat (map print_vref vs) ++ TWord "}" :: rest)).
    + rewrite lets_back by auto. cbn [word_is String.eqb Ascii.eqb Bool.eqb andb].
      rewrite more_back; auto.
      * destruct vs; [contradiction|]. reflexivity.
      * rewrite app_length. pose proof (refs_length vs). lia.
    + rewrite <- !app_assoc. cbn [app]. rewrite <- !app_assoc. cbn [app]. rewrite <- !app_assoc. reflexivity.
Qed.
Lemma decls_back : forall ds n rest, length ds <= n -> Forall nice_decl ds -> take_decl preds rest = None ->
  take_decls preds n (concat (map print_decl ds) ++ rest) = (ds, rest).
Proof.
  induction ds as [|d ds IH]; intros n rest L H R; simpl in L.
  - destruct n; simpl; auto. rewrite R. reflexivity.
  - destruct n; [lia|]. inversion H; subst. cbn [map concat take_decls]. rewrite <- app_assoc, decl_back by auto. rewrite (IH n rest); [reflexivity|lia|auto|auto].
Qed.
Lemma decls_length : forall ds, length ds <= length (concat (map print_decl ds)).
Proof. induction ds as [|d ds IH]; simpl; [lia|]. rewrite app_length. assert (1 <= length (print_decl d)); [|lia]. destruct d as [[[t x] i]|]; simpl; lia. Qed.
Lemma vbls_back : forall ds rest, Forall nice_decl ds -> take_decl preds rest = None -> read_vbls preds (concat (map print_decl ds) ++ rest) = (ds, rest).
Proof. intros ds rest H R. unfold read_vbls. apply decls_back; auto. rewrite app_length. pose proof (decls_length ds). lia. Qed.

(** ** Everything read is nice, if its equalities are apart and the tuples fit *)
Definition raw_decl (d : pdecl) : Prop :=
  match d with
  | PAccess r => raw preds (snd r)
  | PLinks names vals vs => names <> [] /\ vals <> [] /\ vs <> [] /\ Forall (Forall (raw preds)) vals /\ Forall (fun r : vref => raw preds (snd r)) vs
  end.
Lemma more_refs_raw : forall n ts l r, more_refs preds n ts = (l, r) -> Forall (fun p => raw preds (snd p)) l.
Proof.
  induction n; intros ts l r H; simpl in H; [injection H as <- <-; constructor|].
  assert (D : (@nil (string * sexp), ts) = (l, r) -> Forall (fun p => raw preds (snd p)) l) by (intros E; injection E as <- <-; constructor).
  destruct ts as [|t ts]; [auto|]. destruct t; auto. destruct (take_ref preds ts) as [[[x i] r']|] eqn:E; auto.
  destruct (more_refs preds n r') as [l' r''] eqn:E1. injection H as <- <-. constructor; [eapply take_ref_raw; eauto|eauto].
Qed.
Lemma take_accesses_raw : forall ts l r, take_accesses preds ts = Some (l, r) -> Forall (fun r : vref => raw preds (snd r)) l /\ l <> [].
Proof.
  intros ts l r H. unfold take_accesses in H. destruct ts as [|t ts]; [discriminate|]. destruct t; try discriminate. destruct (word_type w) as [t|]; [|discriminate].
  destruct (take_ref preds ts) as [[[x i] r1]|] eqn:E; [|discriminate]. destruct (more_refs preds (length r1) r1) as [l' r'] eqn:E1. destruct r' as [|t' r']; [discriminate|].
  destruct t'; try discriminate. injection H as <- <-. split; [|discriminate]. apply more_refs_raw in E1. apply take_ref_raw in E. constructor; auto.
  apply Forall_forall. intros y Y. apply in_map_iff in Y. destruct Y as (q & <- & Q). rewrite Forall_forall in E1. apply E1. auto.
Qed.
Lemma more_accesses_raw : forall n ts l r, more_accesses preds n ts = (l, r) -> Forall (fun r : vref => raw preds (snd r)) l.
Proof.
  induction n; intros ts l r H; simpl in H; [injection H as <- <-; constructor|]. destruct (take_accesses preds ts) as [[l1 r1]|] eqn:E; [|injection H as <- <-; constructor].
  destruct (more_accesses preds n r1) as [l2 r2] eqn:E1. injection H as <- <-. apply Forall_app. split; [eapply take_accesses_raw; eauto|eauto].
Qed.
Lemma more_exprs_raw : forall n ts l r, more_exprs preds n ts = (l, r) -> Forall (raw preds) l.
Proof.
  induction n; intros ts l r H; simpl in H; [injection H as <- <-; constructor|].
  assert (D : (@nil sexp, ts) = (l, r) -> Forall (raw preds) l) by (intros E; injection E as <- <-; constructor).
  destruct ts as [|t ts]; [auto|]. destruct t; auto. destruct (take_expr preds ts) as [[e r']|] eqn:E; auto.
  destruct (more_exprs preds n r') as [l' r''] eqn:E1. injection H as <- <-. constructor; [eapply read_raw; eauto|eauto].
Qed.
Lemma value_list_raw : forall ts l r, value_list preds ts = Some (l, r) -> Forall (raw preds) l.
Proof.
  intros ts l r H. unfold value_list in H. destruct ts as [|t ts]; [discriminate|]. destruct t; try discriminate.
  destruct (take_expr preds ts) as [[e r1]|] eqn:E; [|discriminate]. destruct (more_exprs preds (length r1) r1) as [l' r'] eqn:E1. destruct r' as [|t' r']; [discriminate|].
  destruct t'; try discriminate. injection H as <- <-. constructor; [eapply read_raw; eauto|eapply more_exprs_raw; eauto].
Qed.
Lemma more_lists_raw : forall n ts l r, more_lists preds n ts = (l, r) -> Forall (Forall (raw preds)) l.
Proof.
  induction n; intros ts l r H; simpl in H; [injection H as <- <-; constructor|].
  assert (D : (@nil (list sexp), ts) = (l, r) -> Forall (Forall (raw preds)) l) by (intros E; injection E as <- <-; constructor).
  destruct ts as [|t ts]; [auto|]. destruct t; auto. destruct (value_list preds ts) as [[e r']|] eqn:E; auto.
  destruct (more_lists preds n r') as [l' r''] eqn:E1. injection H as <- <-. constructor; [eapply value_list_raw; eauto|eauto].
Qed.
Lemma take_lets_raw : forall ts names vals r, take_lets preds ts = Some (names, vals, r) -> names <> [] /\ vals <> [] /\ Forall (Forall (raw preds)) vals.
Proof.
  intros ts names vals r H. unfold take_lets in H. destruct ts as [|t ts]; [discriminate|]. destruct t; try discriminate.
  - destruct ts as [|t ts]; [discriminate|]. destruct t; try discriminate. destruct ts as [|t ts]; [discriminate|]. destruct t; try discriminate.
    destruct (String.eqb w "{#"); [|discriminate]. destruct (take_expr preds ts) as [[e r1]|] eqn:E; [|discriminate].
    destruct (more_exprs preds (length r1) r1) as [l r2] eqn:E1. injection H as <- <- <-. split; [discriminate|]. split; [discriminate|].
    apply read_raw in E. apply more_exprs_raw in E1. apply Forall_forall. change ([e] :: map (fun e : sexp => [e]) l) with (map (fun e : sexp => [e]) (e :: l)). intros y Y. apply in_map_iff in Y. destruct Y as (q & <- & Q). constructor; auto.
    destruct Q as [<-|Q]; auto. rewrite Forall_forall in E1. auto.
  - destruct ts as [|t ts]; [discriminate|]. destruct t; try discriminate. destruct (more_names (length ts) ts) as [xs r0]. destruct r0 as [|t r0]; [discriminate|]. destruct t; try discriminate.
    destruct r0 as [|t r0]; [discriminate|]. destruct t; try discriminate. destruct r0 as [|t r0]; [discriminate|]. destruct t; try discriminate.
    destruct (String.eqb w "{#"); [|discriminate]. destruct (value_list preds r0) as [[v r2]|] eqn:E; [|discriminate].
    destruct (more_lists preds (length r2) r2) as [l r3] eqn:E1. injection H as <- <- <-. split; [discriminate|]. split; [discriminate|].
    constructor; [eapply value_list_raw; eauto|eapply more_lists_raw; eauto].
Qed.
Lemma take_links_raw : forall ts d r, take_links preds ts = Some (d, r) -> raw_decl d.
Proof.
  intros ts d r H. unfold take_links in H. destruct ts as [|t ts]; [discriminate|]. destruct (word_is "symmetric" t); [|discriminate].
  destruct (take_lets preds ts) as [[[names vals] r0]|] eqn:E; [|discriminate]. destruct r0 as [|c [|o r0]]; try discriminate.
  destruct (word_is "#}" c && word_is "{" o); [|discriminate]. destruct (more_accesses preds (length r0) r0) as [l r1] eqn:E1. destruct l as [|v vs]; [discriminate|].
  destruct r1 as [|c' r1]; [discriminate|]. destruct (word_is "}" c'); [|discriminate]. injection H as <- <-. apply take_lets_raw in E. apply more_accesses_raw in E1.
  destruct E as (E2 & E3 & E4). repeat split; auto. discriminate.
Qed.
Lemma take_decls_raw : forall n ts l r, take_decls preds n ts = (l, r) -> Forall raw_decl l.
Proof.
  induction n; intros ts l r H; simpl in H; [injection H as <- <-; constructor|]. destruct (take_decl preds ts) as [[l1 r1]|] eqn:E; [|injection H as <- <-; constructor].
  destruct (take_decls preds n r1) as [l2 r2] eqn:E1. injection H as <- <-. apply Forall_app. split; [|eauto]. unfold take_decl in E.
  destruct (take_accesses preds ts) as [[l0 r0]|] eqn:EA.
  - injection E as <- <-. apply take_accesses_raw in EA. destruct EA as [EA _]. apply Forall_forall. intros y Y. apply in_map_iff in Y. destruct Y as (q & <- & Q). rewrite Forall_forall in EA. apply EA; auto.
  - destruct (take_links preds ts) as [[d r0]|] eqn:EL; [|discriminate]. injection E as <- <-. constructor; auto. eapply take_links_raw; eauto.
Qed.
Lemma read_vbls_raw : forall ts ds r, read_vbls preds ts = (ds, r) -> Forall raw_decl ds.
Proof. intros. eapply take_decls_raw; eauto. Qed.
Definition fits_decl (d : pdecl) : Prop := match d with PAccess _ => True | PLinks names vals _ => Forall (fun t => length t = length names) vals end.
Lemma nice_of_raw : forall d, raw_decl d -> apart_decl d -> fits_decl d -> nice_decl d /\ full d.
Proof.
  intros [r|names vals vs] H1 H2 H3; simpl in *; [split; auto; split; auto|]. destruct H1 as (N1 & N2 & N3 & R1 & R2). destruct H2 as (A1 & A2).
  split; auto. split; [|split; auto]. 
  - split; auto. split; auto. rewrite Forall_forall in *. intros t T. split; auto. specialize (R1 t T). specialize (A1 t T). rewrite Forall_forall in *. intros e E. split; auto.
  - rewrite Forall_forall in *. intros r R. split; auto.
Qed.
Lemma slots_fit : forall ds sls, all_slots ds = Some sls -> Forall raw_decl ds -> Forall fits_decl ds.
Proof.
  induction ds as [|d ds IH]; intros sls A R; [constructor|]. cbn [all_slots fold_right] in A. fold (all_slots ds) in A. inversion R; subst.
  destruct (decl_slots d) as [sa|] eqn:D; [|discriminate]. destruct (all_slots ds) as [sb|] eqn:E; [|discriminate]. constructor; [|eauto].
  destruct d as [r|names vals vs]; simpl; auto. simpl in H1. destruct H1 as (_ & _ & NV & _). destruct vs as [|r vs]; [contradiction|]. unfold decl_slots in D. apply all_parsed_some in D. simpl in D.
  symmetry in D. apply map_eq_app in D. destruct D as (s1 & s2 & _ & D & _). symmetry in D. clear - D. revert s1 D.
  induction vals as [|t vals IHv]; intros [|sl s1] D; simpl in D; try discriminate; constructor.
  - injection D as D _. unfold tuple_lets in D. destruct (Nat.eqb_spec (length names) (length t)); [auto|discriminate].
  - injection D as _ D. eapply IHv; eauto.
Qed.
End Read.

(** ** The text of an index reads back, if the lets in it are tight or it is one of them *)
Lemma arith_isint : forall e, arith e -> isint e = true.
Proof. induction e; simpl; intros H; try tauto; auto. Qed.
Lemma arith_apart : forall e, arith e -> iffs_apart e.
Proof. induction e; simpl; intros H; try tauto; auto. Qed.
Lemma tight_rank : forall e, tight e -> rank e = 0.
Proof. destruct e; simpl; intros H; try tauto. destruct op; simpl; tauto. Qed.
Lemma name_expand : forall L text n x, good_lets L -> 1 <= n \/ L = [] -> expand n text L true (SName x) = Some (match assoc x L with Some v => v | None => SName x end).
Proof.
  intros L text n x GL [N| ->]; [|destruct n; reflexivity]. destruct n as [|n]; [lia|]. simpl. destruct (assoc x L) as [v|] eqn:A; [|reflexivity].
  apply assoc_in in A. destruct (GL _ _ A). apply expand_free; auto.
Qed.
Lemma raw_expand : forall preds L text n, good_lets L -> 1 <= n \/ L = [] -> (forall x v, In (x, v) L -> raw preds v /\ tight v) ->
  forall e e', arith e -> raw preds e -> expand n text L true e = Some e' -> raw preds e' /\ rank e' <= rank e.
Proof.
  intros preds L text n GL N T. induction e; intros e' A R E; simpl in A; try tauto.
  - rewrite name_expand in E by auto. injection E as <-. destruct (assoc x L) as [v|] eqn:AS; [|simpl; auto]. apply assoc_in in AS. destruct (T _ _ AS) as [R1 T1].
    split; auto. rewrite tight_rank; auto.
  - assert (e' = SNat n0) by (destruct n; simpl in E; congruence). subst. simpl; auto.
  - rewrite expand_int in E. destruct (expand_arith L text n e GL N A) as (a & E1 & A1 & _). rewrite E1 in E. injection E as <-. destruct R as [R1 R2].
    destruct (IHe a A R1 E1). simpl. split; [|lia]. split; auto. apply arith_isint; auto.
  - rewrite expand_neg in E. destruct (expand n text L true e) as [a|] eqn:E1; [|discriminate]. injection E as <-. destruct R as [R1 R2].
    destruct (IHe a A R1 eq_refl). simpl. split; [|lia]. split; auto; lia.
  - rewrite expand_bin in E. destruct (expand n text L true e1) as [a|] eqn:E1; [|discriminate]. destruct (expand n text L true e2) as [b|] eqn:E2; [|discriminate]. injection E as <-.
    destruct A as [A1 A2]. destruct R as (R1 & R2 & BF). destruct (IHe1 a A1 R1 eq_refl), (IHe2 b A2 R2 eq_refl). split; [|simpl; lia]. split; auto. split; auto.
    destruct op; simpl in *; lia.
  - rewrite expand_aref in E. destruct (expand n text L true e) as [a|] eqn:E1; [|discriminate]. injection E as <-. destruct (IHe a A R eq_refl). simpl. split; auto.
Qed.
Definition readable_pair (preds : list string) (rl : vref * lmap) : Prop :=
  raw preds (snd (fst rl)) /\ (forall x v, In (x, v) (snd rl) -> raw preds v) /\
  (is_name (snd (fst rl)) = true \/ forall x v, In (x, v) (snd rl) -> tight v).
Lemma text_back : forall preds r L sl, plain_pair (r, L) -> readable_pair preds (r, L) -> slot_of L r = Some sl ->
  sl_text sl = sl_index sl /\ read_expr preds (print (sl_text sl)) = Some (sl_text sl).
Proof.
  intros preds [[t x] i] L sl (A & GL & ND) (R & RL & T) S. cbn [fst snd] in *. unfold slot_of in S.
  destruct (expand_arith L false (length L) i GL (depth L) A) as (e' & E1 & A1 & E2). unfold expanded in S. cbn [negb] in E2. rewrite E1, E2 in S. injection S as <-. cbn [sl_text sl_index].
  split; auto. apply read_expr_take. rewrite <- (app_nil_r (print _)). apply take_back; [|apply arith_apart; auto|simpl; auto].
  destruct T as [T|T]; [|apply (raw_expand preds L false (length L) GL (depth L)) with (e := i); auto; intros y v Y; split; eauto]. destruct i; try discriminate. rewrite name_expand in E1 by (auto; apply depth). injection E1 as <-.
  destruct (assoc x0 L) eqn:AS; [|exact R]. apply assoc_in in AS. eauto.
Qed.
Lemma declared_readable : forall preds ds l, declared ds l -> Forall (raw_decl preds) ds -> Forall tight_decl ds -> Forall (readable_pair preds) l.
Proof.
  intros preds ds l H. induction H as [|r ds l H IH|names vals vs ds l H IH]; intros P Q; inversion P as [|? ? P1 P2]; inversion Q as [|? ? Q1 Q2]; subst; constructor || apply Forall_app; auto.
  - split; [exact P1|]. split; [intros y v []|right; intros y v []].
  - split; auto. destruct P1 as (_ & _ & _ & RV & RS). apply Forall_forall. intros [r L] I. apply in_flat_map in I. destruct I as (r' & R' & I).
    apply in_map_iff in I. destruct I as (tuple & E & T). injection E as <- <-. rewrite Forall_forall in RV, RS. specialize (RV tuple T). rewrite Forall_forall in RV.
    split; [apply RS; auto|]. split.
    + intros y v I. cbn [snd] in I. apply in_rev in I. apply combine_in in I. apply RV. tauto.
    + destruct Q1 as [Q1|Q1]; [right|left; rewrite Forall_forall in Q1; apply Q1; auto]. intros y v I. cbn [snd] in I. apply in_rev in I. apply combine_in in I.
      rewrite Forall_forall in Q1. specialize (Q1 tuple T). rewrite Forall_forall in Q1. apply Q1; tauto.
Qed.
Lemma f2_impl : forall A B (P Q : A -> B -> Prop), (forall a b, P a b -> Q a b) -> forall l l', Forall2 P l l' -> Forall2 Q l l'.
Proof. intros A B P Q H l l' F. induction F; constructor; auto. Qed.
