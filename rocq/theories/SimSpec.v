(** What the interactive simulator should do. *)
From Coq Require Import List Arith Bool Ascii Permutation.
From Verif Require Import FmlaModel FmlaSpec ReachSpec SimModel.
Import ListNotations.

(** Names of variables are made of letters, digits and underscores. *)
Definition word_char (c : ascii) : Prop :=
  let n := nat_of_ascii c in 48 <= n <= 57 \/ 65 <= n <= 90 \/ n = 95 \/ 97 <= n <= 122.

Section Spec.
Variable ds : list nat.
Variable names : list (text * nat).
Variables xn invariant closed_assume : fmla.
Notation ok := (ok ds).
Notation steps := (FmlaSpec.steps).

Record simulated : Prop := mkSimulated {
  si_dom : inhabited ds;
  si_names : length names = length ds;
  si_distinct : NoDup names;
  si_words : Forall (fun b => Forall word_char (fst b)) names;
  si_xn : trans_fmla ds xn;
  si_invariant : state_fmla ds invariant;
  si_assume : state_fmla ds closed_assume
}.
(** The assumption is closed, as its name says. *)
Definition assume_closed : Prop :=
  forall s t, ok s -> ok t -> holds closed_assume s -> steps xn s t -> holds closed_assume t.

(** A transition from [s] to [t], or from [t] to [s]. *)
Definition move (forward : bool) (s t : list nat) : Prop := if forward then steps xn s t else steps xn t s.
(** [t] is another state, one transition away and in the set [M]. *)
Definition offered (forward : bool) (M : list nat -> Prop) (s t : list nat) : Prop :=
  ok t /\ t <> s /\ move forward s t /\ M t.

(** A path of offered states, given by the states after the first. *)
Fixpoint path (forward : bool) (M : list nat -> Prop) (s : list nat) (l : list (list nat)) : Prop :=
  match l with [] => True | t :: l' => offered forward M s t /\ path forward M t l' end.
(** The lines that lead along a path. *)
Fixpoint lines_along (s : list nat) (l : list (list nat)) : list text :=
  match l with [] => [] | t :: l' => diff_line ds names s t :: lines_along t l' end.

(** The three predicates: the invariant, no transition, between two cycles. *)
Definition trans (s t : list nat) : Prop := ok s /\ ok t /\ steps xn s t.
Definition meant (n : predname) (s : list nat) : Prop :=
  match n with
  | PInvariant => holds invariant s
  | PSilent => holds closed_assume s /\ forall t, ok t -> ~ steps xn s t
  | PCycle => between_cycles (list nat) trans (holds closed_assume) s
  end.
Definition wanted (i : influence) (P : Prop) : Prop :=
  match i with WithinPredicate => P | NotInPredicate => ~ P | _ => True end.
Definition same_name (a b : predname) : bool :=
  match a, b with PInvariant, PInvariant | PSilent, PSilent | PCycle, PCycle => true | _, _ => false end.
(** The influence of a predicate after the commands, the latest first. *)
Fixpoint wish (n : predname) (rcs : list command) : influence :=
  match rcs with
  | [] => IgnorePredicate
  | Predicate m i :: rcs' => if same_name m n then i else wish n rcs'
  | _ :: rcs' => wish n rcs'
  end.
(** The states that the commands given so far (the latest first) restrict the simulator to. *)
Definition allowed (rcs : list command) (s : list nat) : Prop :=
  holds closed_assume s /\ forall n, wanted (wish n rcs) (meant n s).

(** A list of all offered states, each once. *)
Definition lists (forward : bool) (M : list nat -> Prop) (s : list nat) (l : list (list nat)) : Prop :=
  NoDup l /\ forall t, In t l <-> offered forward M s t.
(** All offered changes at once: every variable that some offered state changes takes a value that
    one of them gives it, and the others stay. *)
Definition together (M : list nat -> Prop) (s u : list nat) : Prop :=
  ok u /\ forall v, v < length ds ->
  ((forall t, offered true M s t -> nth v t 0 = nth v s 0) /\ nth v u 0 = nth v s 0) \/
  (exists t, offered true M s t /\ nth v t 0 <> nth v s 0 /\ nth v u 0 = nth v t 0).
(** At most [n] rounds of that, with the lines printed; it ends early only where nothing is offered. *)
Inductive rounds (M : list nat -> Prop) : nat -> list nat -> list text -> list nat -> Prop :=
| rounds_0 : forall s, rounds M 0 s [] s
| rounds_stop : forall n s, (forall t, ~ offered true M s t) -> rounds M (S n) s [] s
| rounds_go : forall n s l u ls w, lists true M s l -> l <> [] -> together M s u -> rounds M n u ls w ->
    rounds M (S n) s (map (diff_line ds names s) l ++ ls) w.

(** What a command answers, and the state after it, in a state [s] when the simulator is restricted
    to [M] and the predicates have the influences [w]. *)
Definition answer (w : predname -> influence) (M : list nat -> Prop) (s : list nat) (c : command) (o : output) (s' : list nat) : Prop :=
  match c with
  | Assign line => o = Lines [] /\ ok s'
  | ShowImg => s' = s /\ exists l, lists true M s l /\ o = Lines (map (diff_line ds names s) l)
  | ShowPre => s' = s /\ exists l, lists false M s l /\ o = Lines (map (diff_line ds names s) l)
  | ShowSat => s' = s /\ exists l, o = Sat l /\
      map fst l = filter (fun n => match w n with IgnorePredicate => false | _ => true end) [PInvariant; PSilent; PCycle] /\
      forall n b, In (n, b) l -> (b = true <-> meant n s)
  | ShowState => s' = s /\
      o = Lines (map (fun v => name_of names v ++ [c_eq; c_eq] ++ dec (nth v s 0)) (seq 0 (length ds)))
  | Step forward n _ => exists l, path forward M s l /\ o = Lines (lines_along s l) /\ s' = last l s /\ length l <= n /\
      (length l < n -> forall t, ~ offered forward M s' t)
  | SStep n => exists ls, o = Lines ls /\ rounds M n s ls s'
  | Randomize _ _ => o = Lines [] /\ ok s' /\ (M s' \/ s' = s /\ forall t, ok t -> ~ M t)
  | Predicate _ _ => o = Lines [] /\ s' = s
  end.

(** The commands shuffle the variables properly. *)
Definition fair_command (c : command) : Prop :=
  match c with Randomize order _ => Permutation order (seq 0 (length ds)) | _ => True end.
Definition uses_cycle (c : command) : Prop :=
  match c with Predicate PCycle i => i <> IgnorePredicate | _ => False end.
End Spec.
