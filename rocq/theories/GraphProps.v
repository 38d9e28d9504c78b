(** C99: the picture of a network shows who depends on whom.
    Statements use GraphSpec; proofs are in GraphProofs. *)
From Coq Require Import List Arith Bool Lia.
From Verif Require Import FinLib Radix FmlaModel FmlaSpec ActModel ActSpec ActProofs ActProps NetModel NetSpec NetProofs GraphModel GraphSpec GraphProofs.
Import ListNotations.

(** There is an arrow from one process to another if and only if the first may write a variable that the second mentions. *)
Theorem C99_arrows : forall N i j, net_ok N -> (arrow (edges N) i j <-> informs N i j).
Proof.
  intros N i j HN. unfold arrow. rewrite !(edges_iff N HN). split; [tauto|]. intros H.
  destruct (existsb (fun e => match e with Arc a b => (a =? i) && (b =? j) | _ => false end) (edges N)) eqn:E.
  - apply existsb_exists in E. destruct E as ([a b|a b] & I & E); [|discriminate]. apply andb_true_iff in E. destruct E as [E1 E2]. apply Nat.eqb_eq in E1, E2. subst. apply edges_iff in I; auto.
  - right. assert (B : informs N j i).
    { destruct (pair_in (j, i) (pc_read_map N)) eqn:P; [apply pair_in_iff, (read_map_iff N HN) in P; auto|]. exfalso.
      assert (X : In (Arc i j) (edges N)). { apply (edges_iff N HN). split; auto. intros X. apply (read_map_iff N HN), pair_in_iff in X. congruence. }
      assert (Y : existsb (fun e => match e with Arc a b => (a =? i) && (b =? j) | _ => false end) (edges N) = true) by (apply existsb_exists; exists (Arc i j); split; auto; rewrite !Nat.eqb_refl; auto).
      congruence. }
    destruct (Nat.lt_total i j) as [L|[L|L]]; [left; auto|destruct H; contradiction|right; auto].
Qed.
Print Assumptions C99_arrows.

(** Between two processes there is at most one line. *)
Theorem C99_one_line : forall N i j, net_ok N -> length (filter (between i j) (edges N)) <= 1.
Proof.
  intros N i j HN.
  assert (U : forall e f, In e (filter (between i j) (edges N)) -> In f (filter (between i j) (edges N)) -> e = f).
  { intros e f E F. apply filter_In in E, F. destruct E as [E1 E2], F as [F1 F2]. apply (edges_iff N HN) in E1, F1.
    destruct e as [a b|a b]; destruct f as [c d|c d]; cbn [between] in E2, F2; apply orb_true_iff in E2, F2; rewrite !andb_true_iff, !Nat.eqb_eq in E2, F2;
      destruct E2 as [[-> ->]|[-> ->]]; destruct F2 as [[-> ->]|[-> ->]]; auto; try tauto; lia. }
  assert (ND : NoDup (filter (between i j) (edges N))) by (apply NoDup_filter, edges_nodup).
  destruct (filter (between i j) (edges N)) as [|e [|f l]]; cbn [length]; auto.
  exfalso. inversion ND; subst. apply H1. left. symmetry. apply U; [left; auto|right; left; auto].
Qed.
Print Assumptions C99_one_line.

(** There is a node for each process, and lines only between them. *)
Theorem C99_nodes : forall N, net_ok N -> length (nodes N) = length (pcs N) /\ NoDup (nodes N) /\
  forall i j, arrow (edges N) i j -> i <> j /\ In i (nodes N) /\ In j (nodes N).
Proof.
  intros N HN. unfold nodes. split; [apply seq_length|]. split; [apply seq_NoDup|]. intros i j A. apply C99_arrows in A; auto.
  destruct (informs_less N i j A). split; [apply A|]. split; apply in_seq; lia.
Qed.
Print Assumptions C99_nodes.

(** Whoever is told a value has an arrow. *)
Theorem C99_told : forall N i j, net_ok N -> tells N i j -> arrow (edges N) i j.
Proof.
  intros N i j HN (NE & p & q & x & P & Q & O & k & K & _ & E). apply C99_arrows; auto. split; auto. exists p, q, x. split; auto. split; auto. split; auto. exists k. auto.
Qed.
Print Assumptions C99_told.

(** ** Three processes: the first writes x; the second reads x and writes y; the third sets y without seeing it. *)
Definition bit_of (t : atype) : access := {| a_type := t; a_role := Direct; a_dom := 2 |}.
Definition blank (k : nat) (l : list nat) : process := mkProcess k l (Cst true) (Cst false) (Cst false) (Cst false) (Cst false).
Definition three : network :=
  mkNetwork [2; 2] [Direct; Direct]
    [declare [Plain (bit_of WriteAccess)]; declare [Plain (bit_of ReadAccess); Plain (bit_of WriteAccess)]; declare [Plain (bit_of YieldAccess)]]
    [blank 0 [0]; blank 1 [0; 1]; blank 2 [1]].
Lemma three_ok : net_ok three.
Proof.
  split; cbn [vdoms vroles kinds pcs three].
  - repeat constructor.
  - intros p [<-|[<-|[<-|[]]]]; cbn; lia.
  - intros p [<-|[<-|[<-|[]]]]; reflexivity.
  - intros p i [<-|[<-|[<-|[]]]] Hi; cbn in Hi; destruct i as [|[|i]]; cbn; repeat split; try lia.
  - intros k [<-|[<-|[<-|[]]]]; apply C40_declared_processes; intros n vs H; cbn in H; repeat destruct H as [H|H]; try discriminate; contradiction.
  - intros p [<-|[<-|[<-|[]]]] b i b' i' q _ _ _ _ _; cbn; tauto.
  - intros p [<-|[<-|[<-|[]]]] f [<-|[<-|[<-|[]]]]; (split; [intros b b' i q _ _ _ _|intros b i i' q _ _ _ _ _]; cbn; tauto).
Qed.

(** An arrow does not mean that the process sees anything of the other. *)
Theorem C99_told_refuted : exists N i j, net_ok N /\ arrow (edges N) i j /\ ~ tells N i j.
Proof.
  exists three, 1, 2. split; [apply three_ok|]. split; [right; left; vm_compute; auto|].
  intros (_ & p & q & x & _ & Q & _ & k & K & V & _). injection Q as <-. cbn in K. destruct k as [|k]; [|lia]. destruct V as (_ & V & _). apply V. reflexivity.
Qed.
Print Assumptions C99_told_refuted.

Example C99_example : net_ok three /\ edges three = [Arc 0 1; Both 1 2] /\ tells three 0 1.
Proof.
  split; [apply three_ok|]. split; [vm_compute; reflexivity|]. split; [discriminate|]. exists (blank 0 [0]), (blank 1 [0; 1]), 0.
  split; [reflexivity|]. split; [reflexivity|]. split.
  - exists 0. split; [cbn; lia|]. split; [left; reflexivity|reflexivity].
  - exists 0. split; [cbn; lia|]. split; [split; [discriminate|split; discriminate]|reflexivity].
Qed.
