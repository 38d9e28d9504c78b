(** Model of the formula layer: /repo/src/pfmla.c (representation-independent
    part, with its fast paths for the constants) on top of
    /repo/src/pfmla-glu.c (decision diagrams).

    A decision diagram is modelled by its meaning, a boolean function of the
    values of the diagram variables; the operations mdd_and, mdd_or, mdd_not,
    mdd_smooth, mdd_and_smooth, mdd_substitute, mdd_eq_c, mdd_is_tautology,
    mdd_equal and mdd_lequal of the external library are modelled by their
    documented meaning.  There is one context, so the Claims about equal
    contexts hold; memory management is not modelled.  The fall-back code for
    back ends without sat_ck, equiv_ck, overlap_ck or subseteq_ck is not
    modelled: the diagram back end has them all. *)
From Coq Require Import List Arith Bool.
From Verif Require Import FinLib.
Import ListNotations.

Section Ctx.
(** The domain sizes of the variables of the context, by variable id. *)
Variable doms : list nat.

(** ** Diagram variables, pfmla-glu.c:475-510 *)

(** Each variable has three diagram variables: auxiliary, next and current. *)
Definition aux_id (i : nat) : nat := 3 * i.
Definition img_id (i : nat) : nat := 3 * i + 1.
Definition pre_id (i : nat) : nat := 3 * i + 2.
Definition mdd_doms : list nat := flat_map (fun d => [d; d; d]) doms.

(** The lists of all variables (aux_vbl_list, img_vbl_list, pre_vbl_list). *)
Definition all_ids : list nat := seq 0 (length doms).
Definition aux_vbl_list : list nat := map aux_id all_ids.
Definition img_vbl_list : list nat := map img_id all_ids.
Definition pre_vbl_list : list nat := map pre_id all_ids.

(** The value of every diagram variable when the current state is p, the next
    state i and the auxiliary one a. *)
Fixpoint join (a i p : list nat) : list nat :=
  match a, i, p with
  | x :: a', y :: i', z :: p' => x :: y :: z :: join a' i' p'
  | _, _, _ => []
  end.

(** ** The decision diagram library (external) *)
Notation env := (list nat).
Notation mdd := (list nat -> bool).

(** All assignments of in-range values. *)
Fixpoint assignments (ds : list nat) : list env :=
  match ds with
  | [] => [[]]
  | d :: ds' => flat_map (fun v => map (cons v) (assignments ds')) (seq 0 d)
  end.

Fixpoint mdd_smooth (f : mdd) (ids : list nat) : mdd :=
  match ids with
  | [] => f
  | x :: ids' => fun e => existsb (fun v => mdd_smooth f ids' (upd e x v)) (seq 0 (nth x mdd_doms 0))
  end.

(** Simultaneous renaming of the variables [olds] to [news]. *)
Fixpoint lookup (olds news : list nat) (x : nat) : nat :=
  match olds, news with
  | o :: olds', n :: news' => if x =? o then n else lookup olds' news' x
  | _, _ => x
  end.
Definition mdd_substitute (f : mdd) (olds news : list nat) : mdd :=
  fun e => f (map (fun x => nth (lookup olds news x) e 0) (seq 0 (length e))).

Definition mdd_and_smooth (f g : mdd) (ids : list nat) : mdd := mdd_smooth (fun e => f e && g e) ids.
Definition mdd_eq_c (x v : nat) : mdd := fun e => nth x e 0 =? v.
Definition mdd_is_tautology (f : mdd) (phase : bool) : bool :=
  forallb (fun e => eqb (f e) phase) (assignments mdd_doms).
Definition mdd_equal (f g : mdd) : bool := forallb (fun e => eqb (f e) (g e)) (assignments mdd_doms).
(** f (complemented if pf is false) implies g (complemented if pg is false). *)
Definition mdd_lequal (f g : mdd) (pf pg : bool) : bool :=
  forallb (fun e => negb (eqb (f e) pf) || eqb (g e) pg) (assignments mdd_doms).

(** ** Formulas *)

(** pfmla.h:222-230: null pointer, base without context, or with context. *)
Inductive fmla := Cst (phase : bool) | Mdd (f : mdd).

(** The meaning of a formula. *)
Definition eval (g : fmla) (e : env) : bool := match g with Cst b => b | Mdd f => f e end.

(** pfmla.c:82-95. *)
Definition iden_PFmla (a : fmla) : fmla := match a with Cst b => Cst b | Mdd f => Mdd f end.
(** pfmla.c:97-110. *)
Definition not_PFmla (a : fmla) : fmla :=
  match a with Cst b => Cst (negb b) | Mdd f => Mdd (fun e => negb (f e)) end.
(** pfmla.c:112-137. *)
Definition and_PFmla (a b : fmla) : fmla :=
  match a, b with
  | Cst true, _ => iden_PFmla b
  | Cst false, _ => Cst false
  | _, Cst true => iden_PFmla a
  | _, Cst false => Cst false
  | Mdd f, Mdd g => Mdd (fun e => f e && g e)
  end.
(** pfmla.c:139-164. *)
Definition or_PFmla (a b : fmla) : fmla :=
  match a, b with
  | Cst true, _ => Cst true
  | Cst false, _ => iden_PFmla b
  | _, Cst true => Cst true
  | _, Cst false => iden_PFmla a
  | Mdd f, Mdd g => Mdd (fun e => f e || g e)
  end.
(** pfmla.c:166-191. *)
Definition nimp_PFmla (a b : fmla) : fmla :=
  match a, b with
  | Cst true, _ => not_PFmla b
  | Cst false, _ => Cst false
  | _, Cst true => Cst false
  | _, Cst false => iden_PFmla a
  | Mdd f, Mdd g => Mdd (fun e => f e && negb (g e))
  end.
(** pfmla.c:193-218. *)
Definition xnor_PFmla (a b : fmla) : fmla :=
  match a, b with
  | Cst true, _ => iden_PFmla b
  | Cst false, _ => not_PFmla b
  | _, Cst true => iden_PFmla a
  | _, Cst false => not_PFmla a
  | Mdd f, Mdd g => Mdd (fun e => eqb (f e) (g e))
  end.
(** pfmla.c:220-245. *)
Definition xor_PFmla (a b : fmla) : fmla :=
  match a, b with
  | Cst true, _ => not_PFmla b
  | Cst false, _ => iden_PFmla b
  | _, Cst true => not_PFmla a
  | _, Cst false => iden_PFmla a
  | Mdd f, Mdd g => Mdd (fun e => xorb (f e) (g e))
  end.

(** pfmla.c:247-254. *)
Definition tautology_ck (g : fmla) : bool :=
  match g with Cst b => b | Mdd f => mdd_is_tautology f true end.
(** pfmla.c:256-274; pfmla-glu.c:388-394. *)
Definition sat_ck (g : fmla) : bool :=
  match g with Cst b => b | Mdd f => negb (mdd_is_tautology f false) end.
(** pfmla.c:276-309. *)
Definition equiv_ck (a b : fmla) : bool :=
  match a, b with
  | Cst true, _ => tautology_ck b
  | Cst false, _ => negb (sat_ck b)
  | _, Cst true => tautology_ck a
  | _, Cst false => negb (sat_ck a)
  | Mdd f, Mdd g => mdd_equal f g
  end.
(** pfmla.c:311-342; pfmla-glu.c:406-413. *)
Definition overlap_ck (a b : fmla) : bool :=
  match a, b with
  | Cst true, _ => sat_ck b
  | Cst false, _ => false
  | _, Cst true => sat_ck a
  | _, Cst false => false
  | Mdd f, Mdd g => negb (mdd_lequal f g true false)
  end.
(** pfmla.c:344-373; pfmla-glu.c:415-422. *)
Definition subseteq_ck (a b : fmla) : bool :=
  match a, b with
  | Cst true, _ => tautology_ck b
  | Cst false, _ => true
  | _, Cst true => true
  | _, Cst false => negb (sat_ck a)
  | Mdd f, Mdd g => mdd_lequal f g true true
  end.

(** pfmla.c:383-396; pfmla-glu.c:115-137.  [Sign]: which copies of the listed
    variables are quantified away. *)
Inductive copy := Pre | Img | AllCopies.
Definition copies (c : copy) (l : list nat) : list nat :=
  match c with
  | Pre => map pre_id l
  | Img => map img_id l
  | AllCopies => flat_map (fun i => [aux_id i; img_id i; pre_id i]) l
  end.
Definition smooth_vbls (a : fmla) (l : list nat) (c : copy) : fmla :=
  match a with Cst b => Cst b | Mdd f => Mdd (mdd_smooth f (copies c l)) end.
(** pfmla.c:398-411; pfmla-glu.c:139-157. *)
Definition subst1_vbls (a : fmla) (l : list nat) (to_img : bool) : fmla :=
  match a with
  | Cst b => Cst b
  | Mdd f => Mdd (if to_img then mdd_substitute f (map pre_id l) (map img_id l)
                  else mdd_substitute f (map img_id l) (map pre_id l))
  end.
(** pfmla.c:413-426; pfmla-glu.c:159-173. *)
Definition subst_vbls (a : fmla) (news olds : list nat) : fmla :=
  match a with
  | Cst b => Cst b
  | Mdd f => Mdd (mdd_substitute f (copies AllCopies olds) (copies AllCopies news))
  end.

(** pfmla.c:428-441; pfmla-glu.c:175-185. *)
Definition pre_PFmla (a : fmla) : fmla :=
  match a with Cst b => Cst b | Mdd f => Mdd (mdd_smooth f img_vbl_list) end.
(** pfmla.c:443-464; pfmla-glu.c:187-202. *)
Definition pre1_PFmla (a b : fmla) : fmla :=
  match b, a with
  | Cst true, _ => pre_PFmla a
  | Cst false, _ => Cst false
  | Mdd _, Cst phase => Cst phase
  | Mdd g, Mdd f => Mdd (mdd_and_smooth f (mdd_substitute g pre_vbl_list img_vbl_list) img_vbl_list)
  end.
(** pfmla.c:466-490; pfmla-glu.c:204-220. *)
Definition pre2_PFmla (xn pf : fmla) (l : list nat) : fmla :=
  match pf, xn with
  | Cst true, _ => pre_PFmla xn
  | Cst false, _ => Cst false
  | Mdd _, Cst true => smooth_vbls pf l Pre
  | Mdd _, Cst false => Cst false
  | Mdd g, Mdd f =>
      Mdd (mdd_and_smooth f (mdd_substitute g (map pre_id l) (map img_id l)) (map img_id l))
  end.
(** pfmla.c:492-505; pfmla-glu.c:222-232. *)
Definition img_as_img_PFmla (a : fmla) : fmla :=
  match a with Cst b => Cst b | Mdd f => Mdd (mdd_smooth f pre_vbl_list) end.
(** pfmla.c:507-520; pfmla-glu.c:234-247. *)
Definition img_PFmla (a : fmla) : fmla :=
  match a with
  | Cst b => Cst b
  | Mdd f => Mdd (mdd_substitute (mdd_smooth f pre_vbl_list) img_vbl_list pre_vbl_list)
  end.
(** pfmla.c:522-543; pfmla-glu.c:249-263. *)
Definition img1_PFmla (a b : fmla) : fmla :=
  match b, a with
  | Cst true, _ => img_PFmla a
  | Cst false, _ => Cst false
  | Mdd _, Cst phase => Cst phase
  | Mdd g, Mdd f => Mdd (mdd_substitute (mdd_and_smooth f g pre_vbl_list) img_vbl_list pre_vbl_list)
  end.
(** pfmla.c:545-569; pfmla-glu.c:265-280. *)
Definition img2_PFmla (xn pf : fmla) (l : list nat) : fmla :=
  match pf, xn with
  | Cst true, _ => img_PFmla xn
  | Cst false, _ => Cst false
  | Mdd _, Cst true => smooth_vbls pf l Pre
  | Mdd _, Cst false => Cst false
  | Mdd g, Mdd f =>
      Mdd (mdd_substitute (mdd_and_smooth f g (map pre_id l)) (map img_id l) (map pre_id l))
  end.
(** pfmla.c:571-595; pfmla-glu.c:282-305. *)
Definition dotjoin_PFmla (a b : fmla) : fmla :=
  match b, a with
  | Cst true, _ => pre_PFmla a
  | Cst false, _ => Cst false
  | Mdd _, Cst true => img_as_img_PFmla b
  | Mdd _, Cst false => Cst false
  | Mdd g, Mdd f =>
      Mdd (mdd_and_smooth (mdd_substitute f img_vbl_list aux_vbl_list)
             (mdd_substitute g pre_vbl_list aux_vbl_list) aux_vbl_list)
  end.
(** pfmla.c:597-610; pfmla-glu.c:307-330. *)
Definition inverse_PFmla (a : fmla) : fmla :=
  match a with
  | Cst b => Cst b
  | Mdd f =>
      let tmp0 := mdd_substitute f img_vbl_list aux_vbl_list in
      let tmp1 := mdd_substitute tmp0 pre_vbl_list img_vbl_list in
      Mdd (mdd_substitute tmp1 aux_vbl_list pre_vbl_list)
  end.
(** pfmla.c:612-625; pfmla-glu.c:332-345. *)
Definition as_img_PFmla (a : fmla) : fmla :=
  match a with Cst b => Cst b | Mdd f => Mdd (mdd_substitute f pre_vbl_list img_vbl_list) end.
(** pfmla.hh:328-331. *)
Definition cross_PFmla (a b : fmla) : fmla := and_PFmla a (as_img_PFmla b).

(** ** Variables *)

Definition domsz (v : nat) : nat := nth v doms 0.
(** pfmla.c:737-747. *)
Definition eqc_PFmlaVbl (v x : nat) : fmla :=
  if domsz v <=? x then Cst false else Mdd (mdd_eq_c (pre_id v) x).
(** pfmla.c:772-780. *)
Definition img_eqc_PFmlaVbl (v x : nat) : fmla :=
  let x := if domsz v <=? x then x mod domsz v else x in
  Mdd (mdd_eq_c (img_id v) x).
(** pfmla.c:712-735 (the diagram back end has no vbl_eq_fn). *)
Definition eq_PFmlaVbl (a b : nat) : fmla :=
  fold_left (fun dst i => or_PFmla dst (and_PFmla (eqc_PFmlaVbl a i) (eqc_PFmlaVbl b i)))
    (seq 0 (if domsz a <=? domsz b then domsz a else domsz b)) (Cst false).
(** pfmla.c:749-770. *)
Definition img_eq_PFmlaVbl (a b : nat) : fmla :=
  fold_left (fun dst i => or_PFmla dst (and_PFmla (img_eqc_PFmlaVbl a i) (eqc_PFmlaVbl b i)))
    (seq 0 (domsz b)) (Cst false).
(** pfmla.c:782-804. *)
Definition img_eq_img_PFmlaVbl (a b : nat) : fmla :=
  fold_left (fun dst i => or_PFmla dst (and_PFmla (img_eqc_PFmlaVbl a i) (img_eqc_PFmlaVbl b i)))
    (seq 0 (domsz b)) (Cst false).

(** ** Picking a state *)

(** The inner loops of pfmla.c:645-656 and 685-699: the first value below the
    largest one that is still possible, otherwise the largest. *)
Fixpoint pick_val (a conj : fmla) (v : nat) (vals : list nat) : nat :=
  match vals with
  | [] => domsz v - 1
  | val :: vals' =>
      if overlap_ck (and_PFmla conj (eqc_PFmlaVbl v val)) a then val else pick_val a conj v vals'
  end.
(** pfmla.c:642-660 and 682-704: the chosen values and their conjunction. *)
Fixpoint pick_loop (a conj : fmla) (ids : list nat) : list nat * fmla :=
  match ids with
  | [] => ([], conj)
  | v :: ids' =>
      let val := pick_val a conj v (seq 0 (domsz v - 1)) in
      let (vals, conj) := pick_loop a (and_PFmla conj (eqc_PFmlaVbl v val)) ids' in
      (val :: vals, conj)
  end.
(** pfmla.c:627-667 (no pick_pre_fn in the diagram back end).  None: the Claim
    of line 633 fails. *)
Definition pick_pre_PFmla (a : fmla) : option fmla :=
  match a with
  | Cst true => None
  | Cst false => Some (Cst false)
  | Mdd _ => Some (snd (pick_loop a (Cst true) all_ids))
  end.
(** pfmla.c:669-710. *)
Definition state_of_PFmla (a : fmla) (ids : list nat) : option (list nat) :=
  match a with
  | Cst true => Some (map (fun _ => 0) ids)
  | Cst false => None
  | Mdd _ => Some (fst (pick_loop a (Cst true) ids))
  end.
(** pfmla.cc:168-178 and 180-190. *)
Definition of_state (state ids : list nat) : fmla :=
  fold_left (fun conj vx => and_PFmla conj (eqc_PFmlaVbl (fst vx) (snd vx))) (combine ids state) (Cst true).
Definition of_img_state (state ids : list nat) : fmla :=
  fold_left (fun conj vx => and_PFmla conj (img_eqc_PFmlaVbl (fst vx) (snd vx))) (combine ids state) (Cst true).

(** ** One formula per process, xfmlae.hh:30-130 *)

(** A process: the variables it writes (wvbl_list_ids), its transition formula
    and the mask that keeps the other variables (global_mask_xns). *)
Record proc := mkProc { wvbls : list nat; xn : fmla; mask : fmla }.

(** xfmlae.hh:49-57. *)
Definition xfmla (ps : list proc) : fmla :=
  fold_left (fun ret p => if sat_ck (xn p) then or_PFmla ret (and_PFmla (xn p) (mask p)) else ret) ps (Cst false).
(** xfmlae.hh:62-81. *)
Definition xpre (ps : list proc) : fmla :=
  fold_left (fun ret p => or_PFmla ret (pre_PFmla (xn p))) ps (Cst false).
Definition xpre1 (ps : list proc) (pf : fmla) : fmla :=
  fold_left (fun ret p => or_PFmla ret (pre2_PFmla (xn p) pf (wvbls p))) ps (Cst false).
(** xfmlae.hh:83-105. *)
Definition ximg (ps : list proc) : fmla :=
  fold_left (fun ret p => or_PFmla ret (img_PFmla (xn p))) ps (Cst false).
Definition ximg1 (ps : list proc) (pf : fmla) : fmla :=
  fold_left (fun ret p => or_PFmla ret (img2_PFmla (xn p) pf (wvbls p))) ps (Cst false).
(** xfmlae.hh:131-134. *)
Definition self_disable (p : proc) : proc :=
  mkProc (wvbls p) (nimp_PFmla (xn p) (img_PFmla (and_PFmla (xn p) (mask p)))) (mask p).

(** xnsys.cc:145-147 (commit_variable) and 213-215, 262-271 (add_processes and
    add_access): the identity on all variables, with the written ones smoothed. *)
Definition identity_xn : fmla :=
  fold_left (fun xn v => and_PFmla xn (img_eq_PFmlaVbl v v)) all_ids (Cst true).
Definition mask_xn (written : list nat) : fmla :=
  fold_left (fun xn v => smooth_vbls xn [v] AllCopies) written identity_xn.

End Ctx.
