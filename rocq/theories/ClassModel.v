(** Model of the classifier of ring protocols, /repo/src/uni/classify.cc:18-84 and
    213-235 (column_xfmla, bdd_classify, tile_classify, the verdict in main), on the formulas of
    FmlaModel.v and the livelock check of LivelockModel.v.

    Simplified: cycle_ck(0) is [scc_of] of CmdModel.v followed by its sat_ck.  The reading of
    options and of the protocols (C04, C05), and the files to write to are left out. *)
From Coq Require Import List Arith Bool.
From Verif Require Import UniModel LivelockModel FmlaModel CmdModel.
Import ListNotations.

Section Classify.
Variable domsz : nat.
Variables min_period max_period : nat.
(** classify.cc:36-47: x0, ..., x{max_period}. *)
Definition ring_doms : list nat := repeat domsz (1 + max_period).
Notation ds := ring_doms.

(** classify.cc:22-34 *)
Definition column_xfmla (acts : list UniAct) (x_p x_j : nat) : fmla :=
  fold_left (fun xn (act : UniAct) =>
    let '(a, b, c) := act in
    or_PFmla xn (and_PFmla (and_PFmla (img_eqc_PFmlaVbl ds x_p a) (eqc_PFmlaVbl ds x_j b)) (img_eqc_PFmlaVbl ds x_j c)))
    acts (Cst false).
(** pfmla.cc:60-107, cycle_ck(0).  [None]: no end (it ends). *)
Definition has_cycle (xn : fmla) : option bool := option_map (sat_ck ds) (scc_of ds xn).
(** classify.cc:59-73 *)
Fixpoint classify_loop (acts : list UniAct) (js : list nat) (xn : fmla) : option nat :=
  match js with
  | [] =>
      match has_cycle xn with
      | None => None
      | Some false => Some 0
      | Some true => Some (max_period + 1)
      end
  | j :: js' =>
      let xn := and_PFmla xn (column_xfmla acts (j - 1) j) in
      if min_period <=? j then
        match has_cycle (and_PFmla (and_PFmla xn (eq_PFmlaVbl ds 0 j)) (img_eq_img_PFmlaVbl ds 0 j)) with
        | None => None
        | Some true => Some j
        | Some false => classify_loop acts js' xn
        end
      else classify_loop acts js' xn
  end.
(** classify.cc:50-74 *)
Definition bdd_classify (ppgfun : list nat) : option nat :=
  classify_loop (actions_of_ppgfun ppgfun domsz) (seq 1 max_period) (Cst true).
(** classify.cc:76-86 *)
Definition tile_classify (ppgfun : list nat) : nat :=
  match livelock_semick max_period ppgfun domsz with
  | RNil => 0
  | RYes row _ => length row - 1
  | RMay => max_period + 1
  end.

(** classify.cc:213-235 *)
Inductive verdict := VSilent | VLivelock (period : nat) | VUnknown.
Definition verdict_of (period : nat) : verdict :=
  if period =? 0 then VSilent else if period <=? max_period then VLivelock period else VUnknown.
End Classify.
