(** What it means for suggestions to be tested: which trials a sequence of events
    contains.  Of the model only the events are used. *)
From Coq Require Import List Arith.
From Verif Require Import GuessModel.
Import ListNotations.

(** The results of the trials of one thread, in order. *)
Fixpoint results (pc : nat) (es : list event) : list (option (list nat)) :=
  match es with
  | [] => []
  | End p r :: es' => if p =? pc then r :: results pc es' else results pc es'
  | _ :: es' => results pc es'
  end.

(** Of [npcs] threads, thread [pc] tests the guesses [pc], [pc + npcs],
    [pc + 2 npcs] ...: guess [g] ended with result [r]. *)
Definition tested (npcs : nat) (es : list event) (g : nat) (r : option (list nat)) : Prop :=
  nth_error (results (g mod npcs) es) (g / npcs) = Some r.

(** The first result of all. *)
Fixpoint first_result (es : list event) : option (option (list nat)) :=
  match es with
  | [] => None
  | End _ r :: _ => Some r
  | _ :: es' => first_result es'
  end.

Definition interrupted (es : list event) : Prop := In Signal es.
