(** What the instances of a command line should be, without reference to how they are made. *)
From Coq Require Import String List ZArith Bool.
From Verif Require Import ExprModel InstModel.
Import ListNotations.
Local Open Scope string_scope.
Local Open Scope list_scope.

(** "3..5" is 3, 4, 5; "5..3" is 5, 4, 3; "3..3" is 3; a list is itself. *)
Definition numbers (v : vtext) (l : list Z) : Prop :=
  match vt_nums v with
  | VList l' => l = l'
  | VRange b e =>
      List.length l = S (Z.abs_nat (e - b)) /\
      forall i, i < List.length l -> nth i l 0%Z = (if Z.ltb b e then b + Z.of_nat i else b - Z.of_nat i)%Z
  end.
(** A value in parentheses is a list; any other stands for its numbers one at a time. *)
Definition stands_for (v : vtext) (m : natmap) : Prop := numbers v (nm_membs m) /\ nm_scalar m = negb (vt_paren v).
(** There must be something to choose from. *)
Definition good_text (v : vtext) : Prop := vt_nums v <> VList [] \/ vt_paren v = true.

(** The values in an option *)
Definition word_texts (w : word) : list vtext :=
  match w with
  | WDef _ v => [v] | WParam _ v => [v]
  | WParams l => flat_map (fun p => match p with PDef _ v => [v] | _ => [] end) l
  | _ => []
  end.

(** ** What has been asked for *)
(** The words a -param goes by: the options before it that are not in another -param, then its own. *)
Fixpoint heard (pre : list word) : list pword :=
  match pre with
  | [] => []
  | WDef k v :: pre' => PDef k v :: heard pre'
  | WSet s :: pre' => PSet s :: heard pre'
  | _ :: pre' => heard pre'
  end.
(** One request for each -param [pre]: what stood before. *)
Fixpoint requests_after (pre : list word) (line : list word) : list (list pword) :=
  match line with
  | [] => []
  | w :: line' =>
      match w with
      | WParam k v => [heard pre ++ [PDef k v]]
      | WParams own => [heard pre ++ own]
      | _ => []
      end ++ requests_after (pre ++ [w]) line'
  end.
(** Without a -param there is one request, by the whole line. *)
Definition requests (line : list word) : list (list pword) :=
  match requests_after [] line with [] => [heard line] | r => r end.

(** The last value given to a name *)
Fixpoint last_def (k : string) (l : list pword) : option vtext :=
  match l with
  | [] => None
  | PDef k' v :: l' => match last_def k l' with Some v' => Some v' | None => if String.eqb k k' then Some v else None end
  | _ :: l' => last_def k l'
  end.
Fixpoint last_max (l : list pword) : nat :=
  match l with
  | [] => 0
  | w :: l' => if existsb (fun w => match w with PSet (MaxNlayers _) => true | _ => false end) l' then last_max l'
               else match w with PSet (MaxNlayers n) => n | _ => 0 end
  end.
(** Constants as a list of options says *)
Definition says_consts (l : list pword) (cs : list (string * natmap)) : Prop :=
  forall k, match last_def k l with
            | None => assoc k cs = None
            | Some v => exists m, assoc k cs = Some m /\ stands_for v m
            end.
Definition says (l : list pword) (o : popt) : Prop :=
  says_consts l (po_consts o) /\
  (po_conflict o = false <-> In (PSet NoConflict) l) /\
  (po_partial o = false <-> In PNoPartial l) /\
  (po_sync o = true <-> In (PSet Synchronous) l \/ In (PSet SemiSynchronous) l) /\
  (po_semisync o = true <-> In (PSet SemiSynchronous) l) /\
  (po_uniring o = true <-> In (PSet Uniring) l) /\
  po_layers o = true /\ po_steps o = true /\
  po_max o = last_max l.

(** ** Every combination *)
(** [f] chooses one of the numbers of every constant that is not a list. *)
Definition combination (d : popt) (f : string -> Z) : Prop :=
  forall k m, assoc k (po_consts d) = Some m -> nm_scalar m = true -> In (f k) (nm_membs m).
(** [o] is asked for by [d] with the choices [f]: the same options, the chosen numbers, the same lists, nothing else. *)
Definition instance_of (d : popt) (f : string -> Z) (o : popt) : Prop :=
  with_consts (po_consts d) o = d /\
  forall k, match assoc k (po_consts d) with
            | None => assoc k (po_consts o) = None
            | Some m => if nm_scalar m then exists m', assoc k (po_consts o) = Some m' /\ nm_membs m' = [f k]
                        else assoc k (po_consts o) = Some m
            end.
(** How many combinations there are *)
Definition how_many (d : popt) : nat :=
  fold_right (fun p n => (if nm_scalar (snd p) then List.length (nm_membs (snd p)) else 1) * n) 1 (po_consts d).
Definition no_repeats (d : popt) : Prop := forall k m, assoc k (po_consts d) = Some m -> nm_scalar m = true -> NoDup (nm_membs m).
Definition all_combinations (d : popt) (l : list popt) : Prop :=
  (forall o, In o l -> exists f, combination d f /\ instance_of d f o) /\
  (forall f, combination d f -> exists i, i < List.length l /\ instance_of d f (nth i l popt0)) /\
  (no_repeats d -> forall f i j, i < List.length l -> j < List.length l ->
     instance_of d f (nth i l popt0) -> instance_of d f (nth j l popt0) -> i = j) /\
  List.length l = how_many d /\ l <> [].

(** The option gives no value and asks for no instance *)
Definition quiet (w : word) : Prop := match w with WSet _ => True | _ => False end.
Definition no_params (line : list word) : Prop := forall w, In w line -> match w with WParam _ _ | WParams _ => False | _ => True end.
(** The number a name stands for when it is used without an index *)
Definition plain_value (k : string) (cs : list (string * list Z)) : option Z := match assoc k cs with Some l => hd_error l | None => None end.
