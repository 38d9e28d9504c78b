(** Promela: the initial states. *)
From Coq Require Import NArith.
From Verif Require Import UdpModel UdpSpec.
From Coq Require Import String List Arith Bool ZArith Lia.
From Verif Require Import FinLib Radix ParseModel AccessModel AccessSpec PrintModel FmlaModel FmlaSpec FmlaProofs IntModel IntSpec ExprModel ExprSpec
  ActModel ActSpec NetModel NetSpec UgenSpec UgenProofs4 CmdModel PmlModel PmlSpec PmlProofs PmlProofs2 PmlProofs3.
Import ListNotations.
Local Open Scope list_scope.
Local Open Scope nat_scope.

Lemma fill_over : forall st old pre, length old = length st -> fill (seq (length pre) (length st)) st (pre ++ old) = pre ++ st.
Proof.
  unfold fill. induction st as [|x st IH]; intros [|o old] pre L; cbn [length] in L; try discriminate; cbn [length seq combine fold_left]; auto. cbn [fst snd].
  assert (E : upd (pre ++ o :: old) (length pre) x = (pre ++ [x]) ++ old).
  { rewrite <- app_assoc. cbn [app]. clear. induction pre as [|y pre IHp]; cbn; auto. f_equal. apply IHp. }
  rewrite E. replace (S (length pre)) with (length (pre ++ [x])) by (rewrite app_length; cbn; lia). rewrite IH, <- app_assoc by lia. reflexivity.
Qed.
Lemma assoc_nodup : forall A x (v : A) l, NoDup (map fst l) -> In (x, v) l -> assoc x l = Some v.
Proof.
  intros A x v l. induction l as [|(y, w) l IH]; intros N I; [destruct I|]. cbn [assoc map fst] in *. inversion N as [|? ? N1 N2]; subst.
  destruct (String.eqb_spec x y) as [->|NE].
  - destruct I as [I|I]; [congruence|]. exfalso. apply N1. apply in_map_iff. exists (y, v). auto.
  - destruct I as [I|I]; [congruence|auto].
Qed.

Section Init.
Variables (O : network) (arrays : list (string * list nat)) (cs : list (string * sexp)) (ks : list kind_text).
Hypothesis DN : describes_net O arrays cs ks.
Variable M : pmodel.
Hypothesis MA : m_arrays M = map (fun xl => (fst xl, (array_dom O (snd xl), length (snd xl)))) arrays.
Notation n := (length (vdoms O)).

Definition selects (l : list (string * list nat)) : list (string * nat * nat) :=
  flat_map (fun xl => map (fun j => (fst xl, j, array_dom O (snd xl))) (seq 0 (length (snd xl)))) l.
(** A selection sets the variable [v] to a value below [d]. *)
Definition sets (s : string * nat * nat) (v : nat) : Prop :=
  let '(x, j, d) := s in exists l, assoc x arrays = Some l /\ nth_error l j = Some v /\ d = nth v (vdoms O) 0 /\ forall c, c < d -> kept M [TId x] c = c.
Lemma selects_set : forall l, incl l arrays -> Forall2 sets (selects l) (concat (map snd l)).
Proof.
  induction l as [|(x, vs) l IH]; intros INC; cbn [selects flat_map concat map fst snd]; [constructor|]. apply Forall2_app; [|apply IH; intros y Y; apply INC; right; auto].
  assert (I : In (x, vs) arrays) by (apply INC; left; auto). pose proof (assoc_nodup _ x vs arrays (dn_names _ _ _ _ DN) I) as AR.
  assert (G : forall pre r, vs = pre ++ r -> Forall2 sets (map (fun j => (x, j, array_dom O vs)) (seq (length pre) (length r))) r).
  { intros pre r. revert pre. induction r as [|v r IHr]; intros pre E; cbn [length seq map]; constructor.
    - exists vs. split; auto. split; [rewrite E, nth_error_app2, Nat.sub_diag by lia; reflexivity|].
      assert (Iv : In v vs) by (rewrite E; apply in_or_app; right; left; auto).
      assert (D : array_dom O vs = nth v (vdoms O) 0).
      { unfold array_dom. apply (dn_doms _ _ _ _ DN x vs); auto. destruct vs as [|w ws]; [destruct Iv|left; auto]. }
      split; auto. intros c C. cbn [kept]. rewrite MA.
      assert (AS : assoc x (map (fun xl => (fst xl, (array_dom O (snd xl), length (snd xl)))) arrays) = Some (array_dom O vs, length vs)).
      { clear -AR. induction arrays as [|(y, w) rr IHA]; cbn [assoc map fst snd] in *; [discriminate|]. destruct (String.eqb x y); [injection AR as ->; reflexivity|auto]. }
      rewrite AS. pose proof (dn_bytes _ _ _ _ DN) as BY. rewrite Forall_forall in BY.
      assert (V : v < n). { assert (X : In v (concat (map snd arrays))) by (apply in_concat; exists vs; split; auto; apply in_map_iff; exists (x, vs); auto). rewrite (dn_arrays _ _ _ _ DN) in X. apply in_seq in X. lia. }
      assert (B : array_dom O vs <= 256) by (rewrite D; apply BY, nth_In; exact V). destruct (Nat.eqb_spec (array_dom O vs) 2); apply Nat.mod_small; lia.
    - replace (S (length pre)) with (length (pre ++ [v])) by (rewrite app_length; cbn; lia). apply IHr. rewrite <- app_assoc. exact E. }
  apply (G [] vs eq_refl).
Qed.
Lemma run_sets : forall sel vs, Forall2 sets sel vs -> forall choice s,
  run_init M arrays sel choice s <> Fault /\
  forall t, run_init M arrays sel choice s = Next t <-> Forall2 lt choice (map (fun v => nth v (vdoms O) 0) vs) /\ t = fill vs choice s.
Proof.
  intros sel vs F. induction F as [|((x, j), d) v sel vs H F IH]; intros choice s.
  - destruct choice as [|c choice]; cbn [run_init map]; (split; [discriminate|]); intros t; unfold fill; cbn [combine fold_left]; split.
    + intros E. injection E as <-. auto.
    + intros (_ & ->). reflexivity.
    + discriminate.
    + intros (X & _). inversion X.
  - destruct H as (l & AR & NE & D & K). destruct choice as [|c choice]; cbn [run_init map].
    + split; [discriminate|]. intros t. split; [discriminate|]. intros (X & _). inversion X.
    + rewrite AR, NE. destruct (Nat.ltb_spec c d) as [L|L].
      * rewrite (K c L). destruct (IH choice (upd s v c)) as (I1 & I2). split; auto. intros t. rewrite I2. unfold fill at 2. cbn [combine fold_left fst snd]. fold (fill vs choice (upd s v c)).
        split; intros (A & B); split; auto; [constructor; [lia|auto]|inversion A; auto].
      * split; [discriminate|]. intros t. split; [discriminate|]. intros (X & _). inversion X; lia.
Qed.
Theorem init_iff : forall s, length s = n ->
  (forall choice, run_init M arrays (selects arrays) choice s <> Fault) /\
  forall t, (exists choice, run_init M arrays (selects arrays) choice s = Next t) <-> FmlaSpec.ok (vdoms O) t.
Proof.
  intros s L. pose proof (selects_set arrays (incl_refl _)) as F. rewrite (dn_arrays _ _ _ _ DN) in F.
  assert (E : map (fun v => nth v (vdoms O) 0) (seq 0 n) = vdoms O).
  { clear. induction (vdoms O) as [|d l IH]; cbn; auto. rewrite <- seq_shift, map_map. f_equal. exact IH. }
  assert (FL : forall choice, Forall2 lt choice (vdoms O) -> fill (seq 0 n) choice s = choice).
  { intros choice C. pose proof (proj1 (Forall2_nth_iff _ _) C) as (LC & _). rewrite <- LC. apply (fill_over choice s []). lia. }
  split; [intros choice; apply (run_sets _ _ F)|]. intros t. split.
  - intros (choice & R). apply (run_sets _ _ F) in R. rewrite E in R. destruct R as (R & ->). rewrite FL by exact R. exact R.
  - intros Tt. exists t. apply (run_sets _ _ F). rewrite E. split; auto. symmetry. apply FL. exact Tt.
Qed.
End Init.
