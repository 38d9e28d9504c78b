(** C66: examples, and what is not true of given actions. *)
From Coq Require Import List Arith Bool Lia.
From Verif Require Import FinLib Radix FmlaModel FmlaSpec FmlaProofs FmlaProofs2 FmlaProofs3 FmlaProofs4 FmlaProps
  ActModel ActSpec ActProofs ActProofs2 ActProofs4 ActProps NetModel NetSpec NetProofs NetProofs2 NetProofs3 NetProofs4 NetProps
  CandModel GivenSpec GivenProofs GivenProps.
Import ListNotations.

(** Without interchangeable links there is nothing to be even-handed about. *)
Lemma without_links : forall N, uniform N -> (forall k, In k (kinds N) -> symms k = []) ->
  (forall p, In p (pcs N) -> p_kind p < length (kinds N)) -> even_handed N.
Proof.
  intros N U L K p q v v' s t s' t' Hp Hq KK A A' (f & (F & _) & R1 & R2) S' T' (D1 & D2) (D1' & D2') G.
  assert (FI : forall i, f i = i).
  { intros i. apply F. intros k row Hk. exfalso. rewrite (L (its_kind N p)) in Hk; [destruct Hk|]. apply nth_In. auto. }
  assert (QQ : its_kind N q = its_kind N p) by (unfold its_kind; rewrite KK; auto).
  unfold accesses, access_at in *. rewrite QQ in *. destruct G as (S & T & G). apply (U p q s t s' t'); auto.
  - intros i Hi. rewrite D1, D1', R1, FI by auto. auto.
  - intros i Hi W. rewrite D2, D2', R2, FI by auto. auto.
  - split; auto.
Qed.

(** ** A ring of three bits in which each process copies its left neighbour *)
Definition copying (l o : nat) : process :=
  let b := [2; 2; 2] in
  mkProcess 0 [l; o] (Cst true)
    (or_PFmla (and_PFmla (eqc_PFmlaVbl b l 1) (and_PFmla (eqc_PFmlaVbl b o 0) (img_eqc_PFmlaVbl b o 1)))
              (and_PFmla (eqc_PFmlaVbl b l 0) (and_PFmla (eqc_PFmlaVbl b o 1) (img_eqc_PFmlaVbl b o 0))))
    (Cst false) (Cst false) (Cst false).
Definition copy_net : network :=
  mkNetwork [2; 2; 2] [Direct; Direct; Direct] [declare [Plain (bit ReadAccess); Plain (bit WriteAccess)]]
    [copying 2 0; copying 0 1; copying 1 2].

Lemma copying_means : forall l o a i p, l < 3 -> o < 3 -> ok [2; 2; 2] a -> ok [2; 2; 2] i -> ok [2; 2; 2] p ->
  (meaning (p_puppet (copying l o)) a i p <-> nth l p 0 <> nth o p 0 /\ nth o i 0 = nth l p 0).
Proof.
  intros l o a i p L O A I P. unfold meaning, copying. cbn [p_puppet]. rewrite eval_or, !eval_and.
  rewrite !(ev_eqc [2; 2; 2]), !(ev_img_eqc [2; 2; 2]) by auto.
  assert (B : forall x q, x < 3 -> ok [2; 2; 2] q -> nth x q 0 < 2).
  { intros x q X Q. pose proof (ok_nth _ _ x Q X) as H. destruct x as [|[|[|x]]]; cbn in H; lia. }
  assert (M : forall c, c < 2 -> c mod domsz [2; 2; 2] o = c).
  { intros c C. apply Nat.mod_small. unfold domsz. destruct o as [|[|[|o]]]; cbn; lia. }
  rewrite !M by lia. pose proof (B l p L P). pose proof (B o p O P). pose proof (B o i O I).
  rewrite orb_true_iff, !andb_true_iff, !Nat.eqb_eq. lia.
Qed.

Lemma copy_pcs : forall p, In p (pcs copy_net) -> exists l o, l < 3 /\ o < 3 /\ p = copying l o.
Proof. intros p [<-|[<-|[<-|[]]]]; eexists _, _; repeat split; lia. Qed.

Lemma copy_ok : net_ok copy_net.
Proof.
  split; cbn [vdoms vroles kinds copy_net].
  - repeat constructor.
  - intros p Hp. destruct (copy_pcs p Hp) as (l & o & L & O & ->). cbn. lia.
  - intros p Hp. destruct (copy_pcs p Hp) as (l & o & L & O & ->). reflexivity.
  - intros p i Hp Hi. destruct (copy_pcs p Hp) as (l & o & L & O & ->). cbn in Hi.
    destruct i as [|[|i]]; [| |lia]; cbn; (split; [auto|]); [destruct l as [|[|[|]]]|destruct o as [|[|[|]]]]; try lia; auto.
  - intros k [<-|[]]. apply C40_declared_processes. intros n vs [H|[H|[]]]; discriminate.
  - intros p Hp. destruct (copy_pcs p Hp) as (l & o & L & O & ->). intros b i b' i' q _ _ _ _ _. cbn. tauto.
  - intros p Hp f Hf. destruct (copy_pcs p Hp) as (l & o & L & O & ->). destruct Hf as [<-|[<-|[<-|[]]]].
    + split.
      * intros b b' i q B B' I Q. rewrite !copying_means by auto. tauto.
      * intros b i i' q B I I' Q E. rewrite !copying_means by auto. rewrite (E o); [tauto|].
        left. exists 1. split; [cbn; lia|]. split; [left; reflexivity|reflexivity].
    + split; [intros b b' i q _ _ _ _|intros b i i' q _ _ _ _ _]; cbn; tauto.
    + split; [intros b b' i q _ _ _ _|intros b i i' q _ _ _ _ _]; cbn; tauto.
Qed.

Lemma copy_given : forall l o s t, l < 3 -> o < 3 -> ok [2; 2; 2] s -> ok [2; 2; 2] t ->
  (given_to copy_net (copying l o) s t <-> nth l s 0 <> nth o s 0 /\ nth o t 0 = nth l s 0).
Proof.
  intros l o s t L O S T. unfold given_to. cbn [copy_net vdoms]. unfold steps. rewrite copying_means by auto.
  split; [tauto|]. intros H. split; auto. split; auto. split; auto. reflexivity.
Qed.

Example C66_example :
  net_ok copy_net /\ (forall p, In p (pcs copy_net) -> open_kind (its_kind copy_net p)) /\
  uniform copy_net /\ even_handed copy_net /\
  given_actions copy_net 17 = Some [2; 5] /\
  vals (act_of (kinds copy_net) 2) = [0; 1; 0] /\ vals (act_of (kinds copy_net) 5) = [1; 0; 1] /\
  given_step copy_net (copying 1 2) [0; 1; 0] [0; 1; 1] /\
  class_move copy_net 5 (copying 1 2) [0; 1; 0] [0; 1; 1].
Proof.
  assert (OP : forall p, In p (pcs copy_net) -> open_kind (its_kind copy_net p)).
  { intros p Hp. destruct (copy_pcs p Hp) as (l & o & L & O & ->). intros a Ha. cbn in Ha.
    destruct Ha as [<-|[<-|[]]]; (split; [split; [|split]|]); discriminate. }
  assert (U : uniform copy_net).
  { intros p q s t s' t' Hp Hq _ S T S' T' E1 E2. destruct (copy_pcs p Hp) as (l & o & L & O & ->). destruct (copy_pcs q Hq) as (l' & o' & L' & O' & ->).
    cbn [copy_net vdoms] in *. rewrite !copy_given by auto.
    pose proof (E1 0 ltac:(cbn; lia)) as A0. pose proof (E1 1 ltac:(cbn; lia)) as A1. pose proof (E2 1 ltac:(cbn; lia) ltac:(left; reflexivity)) as B1.
    change (nth l s 0 = nth l' s' 0) in A0. change (nth o s 0 = nth o' s' 0) in A1. change (nth o t 0 = nth o' t' 0) in B1. lia. }
  assert (GA : given_actions copy_net 17 = Some [2; 5]) by (vm_compute; reflexivity).
  assert (S1 : given_step copy_net (copying 1 2) [0; 1; 0] [0; 1; 1]).
  { split.
    - apply copy_given; [lia|lia|repeat constructor|repeat constructor|]. cbn. lia.
    - intros x Hx NO _. cbn in Hx. destruct x as [|[|[|x]]]; [reflexivity|reflexivity| |lia]. exfalso. apply NO.
      exists 1. split; [cbn; lia|]. split; [left; reflexivity|reflexivity]. }
  split; [apply copy_ok|]. split; auto. split; auto. split.
  { apply without_links; auto.
    - intros k [<-|[]]. reflexivity.
    - apply copy_ok. }
  split; auto. split; [vm_compute; reflexivity|]. split; [vm_compute; reflexivity|]. split; auto.
  destruct (C66_complete copy_net 17 [2; 5] copy_ok OP U ltac:(cbn; lia) GA (copying 1 2) [0; 1; 0] [0; 1; 1]) as (a & [<-|[<-|[]]] & M); auto.
  - cbn. auto.
  - exists 1. split; [cbn; lia|]. split; [left; reflexivity|]. cbn. discriminate.
  - exfalso. destruct M as (r & R1 & CL & _ & M). apply (C40_classes (kinds copy_net)) in CL; [|apply (links_ok _ copy_ok)|cbn; lia|auto].
    change (actions_in (kinds copy_net)) with 8 in R1.
    assert (r = 2).
    { assert (RR : forall q, q < 8 -> representative_action_index (kinds copy_net) q = Some q).
      { clear. intros q Hq. do 8 (destruct q as [|q]; [vm_compute; reflexivity|]). lia. }
      rewrite !RR in CL by lia. congruence. }
    subst r. destruct M as [G _ _ _ _]. specialize (G 0 ltac:(cbn; lia)). assert (X : value [0; 1; 0] (copying 1 2) 0 = 0); [|discriminate].
    rewrite G; [reflexivity|]. split; [|split]; discriminate.
Qed.

(** ** Two interchangeable links, of which the protocol treats one only *)
Definition asking : process :=
  let b := [2; 2] in
  mkProcess 0 [0; 1] (Cst true)
    (and_PFmla (and_PFmla (eqc_PFmlaVbl b 0 0) (eqc_PFmlaVbl b 1 1)) (and_PFmla (img_eqc_PFmlaVbl b 0 0) (img_eqc_PFmlaVbl b 1 0)))
    (Cst false) (Cst false) (Cst false).
Definition asking_net : network :=
  mkNetwork [2; 2] [Direct; Direct] [declare [Symmetric 2 [bit WriteAccess]]] [asking].

Lemma asking_ok : net_ok asking_net.
Proof.
  split; cbn [vdoms vroles kinds pcs asking_net].
  - repeat constructor.
  - intros p [<-|[]]. cbn. lia.
  - intros p [<-|[]]. reflexivity.
  - intros p i [<-|[]] Hi. cbn in Hi. destruct i as [|[|i]]; cbn; repeat split; lia.
  - intros k [<-|[]]. apply C40_declared_processes. intros n vs [H|[]]. injection H as <- <-. lia.
  - intros p [<-|[]] b i b' i' q _ _ _ _ _. cbn. tauto.
  - intros p [<-|[]] f [<-|[<-|[<-|[]]]].
    + split; [intros b b' i q B B' I Q|intros b i i' q B I I' Q E]; unfold meaning; cbn [asking p_puppet];
        rewrite !eval_and, !(ev_eqc [2; 2]), !(ev_img_eqc [2; 2]) by (auto; cbn; lia); [reflexivity|].
      rewrite (E 0), (E 1); [reflexivity| |]; left; [exists 1|exists 0]; (split; [cbn; lia|]); (split; [left; reflexivity|reflexivity]).
    + split; [intros b b' i q _ _ _ _|intros b i i' q _ _ _ _ _]; cbn; tauto.
    + split; [intros b b' i q _ _ _ _|intros b i i' q _ _ _ _ _]; cbn; tauto.
Qed.

(** Refuted: "the given actions are those of the given protocol".  A protocol that acts when the
    first of two interchangeable links is 0 and the second 1 also acts when they are 1 and 0. *)
Theorem C66_links_refuted : exists N fuel l a p s t,
  net_ok N /\ (forall p, In p (pcs N) -> open_kind (its_kind N p)) /\ uniform N /\
  2 * length (assignments (vdoms N)) < fuel /\ given_actions N fuel = Some l /\
  In a l /\ In p (pcs N) /\ ok (vdoms N) s /\ ok (vdoms N) t /\
  class_move N a p s t /\ ~ given_step N p s t.
Proof.
  assert (OP : forall p, In p (pcs asking_net) -> open_kind (its_kind asking_net p)).
  { intros p [<-|[]] a Ha. cbn in Ha. destruct Ha as [<-|[<-|[]]]; (split; [split; [|split]|]); discriminate. }
  exists asking_net, 9, [4], 4, asking, [1; 0], [0; 0].
  split; [apply asking_ok|]. split; auto. split; [|split; [|split; [|split; [|split; [|split; [|split; [|split]]]]]]].
  - intros p q s t s' t' [<-|[]] [<-|[]] _ S T S' T' E1 E2 (_ & _ & G1 & G2). split; auto. split; auto. split; auto.
    cbn [asking_net vdoms] in *.
    pose proof (E1 0 ltac:(cbn; lia)) as A0. pose proof (E1 1 ltac:(cbn; lia)) as A1.
    pose proof (E2 0 ltac:(cbn; lia) ltac:(left; reflexivity)) as B0. pose proof (E2 1 ltac:(cbn; lia) ltac:(left; reflexivity)) as B1.
    change (nth 0 s 0 = nth 0 s' 0) in A0. change (nth 1 s 0 = nth 1 s' 0) in A1.
    change (nth 0 t 0 = nth 0 t' 0) in B0. change (nth 1 t 0 = nth 1 t' 0) in B1.
    unfold steps, meaning in *. cbn [asking p_puppet] in *.
    rewrite !eval_and, !(ev_eqc [2; 2]), !(ev_img_eqc [2; 2]) in * by (auto; cbn; lia). rewrite <- A0, <- A1, <- B0, <- B1. exact G2.
  - cbn. lia.
  - vm_compute. reflexivity.
  - cbn. auto.
  - cbn. auto.
  - repeat constructor.
  - repeat constructor.
  - assert (L4 : 4 < actions_in (kinds asking_net)) by (apply Nat.ltb_lt; vm_compute; reflexivity).
    assert (L8 : 8 < actions_in (kinds asking_net)) by (apply Nat.ltb_lt; vm_compute; reflexivity).
    assert (E8 : act_of (kinds asking_net) 8 = {| act_pc := 0; vals := [1; 0; 0; 0] |}) by (vm_compute; reflexivity).
    exists 8. split; auto. split.
    + apply (C40_classes (kinds asking_net) 4 8 (links_ok _ asking_ok) L4 L8). vm_compute. reflexivity.
    + destruct (C39_decode (kinds asking_net) 8 L8) as (_ & AV & _). rewrite E8 in *. split; [reflexivity|].
      apply (open_move asking_net OP); [cbn; auto|exact AV|repeat constructor|]. split; [|split].
      * split; [intros i Hi|intros i Hi _]; cbn in Hi; (destruct i as [|[|i]]; [reflexivity|reflexivity|lia]).
      * intros x Hx NO _. exfalso. apply NO. exists x. cbn in Hx. split; [exact Hx|].
        destruct x as [|[|x]]; [| |lia]; (split; [left; reflexivity|reflexivity]).
      * intros X. specialize (X 0 ltac:(cbn; lia) ltac:(left; reflexivity)). discriminate.
  - intros ((_ & _ & _ & G) & _). unfold steps, meaning in G. cbn [asking_net vdoms] in G.
    vm_compute in G. discriminate.
Qed.
Print Assumptions C66_links_refuted.
