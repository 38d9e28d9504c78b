(** The check of a system before anything is done with it.

    Models
      - /repo/src/xnsys.cc:58-67     Net::commit_initialization (variables that are read at random),
      - /repo/src/xnsys.cc:641-697   Sys::integrityCk, without the parts under "if (false)",
      - /repo/src/xnsys.hh:129-131   smooth_shadow_vbls. *)
From Coq Require Import List Arith Bool String ZArith.
From Verif Require Import FinLib Radix FmlaModel ActModel NetModel CandModel IntModel ExprModel CmdModel.
Import ListNotations.

(** A Claim of xnsys.cc:649-651 fails, an error is reported, or all is well. *)
Inductive integrity := ClaimFails | Reported | Fine.

Section Integrity.
Variable S : system.
Notation N := (s_net S).
Notation ds := (vdoms (s_net S)).
(** xnsys.cc:154, 66 *)
Definition kept_xn : fmla := fold_left (fun x v => smooth_vbls ds x [v] AllCopies) (random_vbls N) (identity_xn ds).
(** xnsys.cc:165-167, xnsys.hh:129-131 *)
Definition smooth_shadow (f : fmla) : fmla := smooth_vbls ds f (filter (vbl_shadow S) (all_ids ds)) AllCopies.
(** xnsys.cc:649-651 *)
Definition claims_hold : bool :=
  sat_ck ds kept_xn && subseteq_ck ds kept_xn (shadow_self S) && equiv_ck ds (proj_shadow N kept_xn) (shadow_self S).
(** xnsys.cc:653-661.  The kinds are those of the specification, whether or not they have processes. *)
Definition random_reads_puppets : bool :=
  forallb (fun k => forallb (fun a => negb (random_read_ck a) || match a_role a with Puppet => true | _ => false end) (accs k)) (kinds N).
(** xnsys.cc:679-683 *)
Definition invariant_fits : bool :=
  sat_ck ds (s_invariant S) && tautology_ck ds (smooth_shadow (s_invariant S)).
Definition integrity_ck (featherweight : bool) : integrity :=
  if featherweight then Fine
  else if negb claims_hold then ClaimFails
  else if random_reads_puppets && invariant_fits then Fine else Reported.
End Integrity.
