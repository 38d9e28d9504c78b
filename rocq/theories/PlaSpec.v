(** What a table of bits says. *)
From Coq Require Import String List Arith Bool ZArith.
From Verif Require Import ActModel ActSpec ExprModel CmdModel ParseModel ParseSpec AccessModel PlaModel.
Import ListNotations.
Local Open Scope list_scope.

(** A line stands for the value lists that have, for every field, a value with a 1. *)
Definition matches (c : list bits) (x : list nat) : Prop := Forall2 (fun (f : bits) n => nth n f false = true) c x.
(** The accesses that can be written. *)
Definition writables (K : pcsymm) : list nat :=
  filter (fun i => match a_type (nth i (accs K) acc0) with
                   | WriteAccess | YieldAccess | EffectAccess | RandomWriteAccess => true | _ => false end) (seq 0 (length (accs K))).
(** The sizes of the fields: those of what is accessed, then those of what is written. *)
Definition widths (K : pcsymm) : list nat :=
  map a_dom (accs K) ++ map (fun i => a_dom (nth i (accs K) acc0)) (writables K).
(** The processes see all that they access, and do not write at random. *)
Definition plain_kind (K : pcsymm) : Prop := forall a, In a (accs K) -> visible a /\ a_type a <> RandomWriteAccess.
(** The action changes something. *)
Definition changes (K : pcsymm) (v : list nat) : Prop :=
  exists i, i < length (accs K) /\ writable (nth i (accs K) acc0) /\ tested v i <> assigned K v i.
(** [v] are the values of an action of the solution, for the kind numbered [k]. *)
Definition of_solution (net : list pcsymm) (actions : list nat) (k : nat) (v : list nat) : Prop :=
  exists a r, In a actions /\ r < actions_in net /\ same_action_class net a r /\ act_pc (act_of net r) = k /\ vals (act_of net r) = v.
(** The lines [cs] say the same as the lines [rows], and no field is without a 1. *)
Record same_table (ws : list nat) (rows cs : list (list bits)) : Prop := mkSame {
  st_widths : forall c, In c cs -> map (@length bool) c = ws;
  st_some : forall c f, In c cs -> In f c -> In true f;
  st_same : forall x, (exists c, In c cs /\ matches c x) <-> (exists c, In c rows /\ matches c x)
}.
(** The assignments of the values [w] to what is written. *)
Definition sets (K : pcsymm) (sls : list slot) (w : list nat) : list assignment :=
  map (fun p => ASet (sl_array (nth (fst p) sls (mkSlot ReadAccess "" (SNat 0) (SNat 0)))) (sl_text (nth (fst p) sls (mkSlot ReadAccess "" (SNat 0) (SNat 0)))) (Some (SNat (snd p))))
    (combine (writables K) w).
(** The indices are texts that can be read and printed. *)
Definition readable (names : list string) (sls : list slot) : Prop :=
  Forall (fun sl => (exists ts, read_expr names ts = Some (sl_text sl)) /\ iffs_apart (sl_text sl)) sls.
