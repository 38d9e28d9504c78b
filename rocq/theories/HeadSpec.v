(** What the declarations of a protocol file say. *)
From Coq Require Import String List Arith Bool ZArith.
From Verif Require Import ParseModel AccessModel AccessSpec FmlaModel FmlaSpec ActModel NetModel IntModel ExprModel ExprSpec CmdModel CmdSpec DeclModel DeclSpec HeadModel.
Import ListNotations.
Local Open Scope list_scope.

(** ** Constants *)
(** What an expression of a declaration can mention: constants *)
Definition constants_only (C : list (string * list Z)) : scope := mkScope [] [] C [] [].
Definition worth (C : list (string * list Z)) (e : sexp) (v : Z) : Prop := value_of (constants_only C) [] e [] = Some v.
(** The values that the declaration gives to its constant *)
Definition const_says (C : list (string * list Z)) (c : cdecl) (vals : list Z) : Prop :=
  match c with
  | ConstInt _ e => exists v, worth C e v /\ vals = [v]
  | ConstList _ es => Forall2 (worth C) es vals
  end.

(** ** Variables *)
(** The array that is declared, with its size and its domain *)
Definition array_says (C : list (string * list Z)) (d : vdecl) (a : vsymm) : Prop :=
  vs_role a = vd_role d /\ vs_name a = vd_name d /\ worth C (vd_size d) (Z.of_nat (vs_size a)) /\ 0 < vs_size a /\
  worth C (vd_dom d) (Z.of_nat (vs_dom a)) /\ 0 < vs_dom a.
(** The last array of the name *)
Definition last_named (x : string) (l : list vsymm) (a : nat) : Prop :=
  (exists d, nth_error l a = Some d /\ vs_name d = x) /\ forall b d, nth_error l b = Some d -> vs_name d = x -> b <= a.
(** Member [j] of array [a] *)
Definition has_member (l : list vsymm) (a j : nat) : Prop := exists d, nth_error l a = Some d /\ j < vs_size d.
(** [id a j] is the variable that is member [j] of array [a]. *)
Record numbered (l : list vsymm) (doms : list nat) (roles : list role) (arrays : list (string * list nat)) (id : nat -> nat -> nat) : Prop := mkNumbered {
  nb_known : forall a d j, nth_error l a = Some d -> j < vs_size d ->
    nth_error doms (id a j) = Some (vs_dom d) /\ nth_error roles (id a j) = Some (vs_role d);
  nb_all : forall v, v < length doms -> exists a j, has_member l a j /\ id a j = v;
  nb_once : forall a j a' j', has_member l a j -> has_member l a' j' -> id a j = id a' j' -> a = a' /\ j = j';
  nb_order : forall a j j', has_member l a j' -> j < j' -> id a j < id a j';
  nb_roles : length roles = length doms;
  nb_arrays : forall x, match assoc x arrays with
                        | Some vs => exists a d, last_named x l a /\ nth_error l a = Some d /\ vs = map (id a) (seq 0 (vs_size d))
                        | None => forall d, In d l -> vs_name d <> x
                        end
}.

(** ** Kinds of processes *)
(** The scope after the lets: each sees those before it *)
Fixpoint with_lets (G : scope) (b : imap) (s : list nat) (l : list (string * sexp)) : option scope :=
  match l with
  | [] => Some G
  | (x, e) :: l' =>
      match value_of G b e s with
      | Some v => with_lets (mkScope ((x, v) :: s_lets G) (s_preds G) (g_consts G) (g_arrays G) (g_preds G)) b s l'
      | None => None
      end
  end.
Definition no_lets (G : scope) : scope := mkScope [] [] (g_consts G) (g_arrays G) (g_preds G).
(** The index of process number [i] *)
Definition index_says (G : scope) (k : kdecl) (i : nat) (s : list nat) : option Z :=
  match kd_map k with
  | None => Some (Z.of_nat i)
  | Some (x, e) => value_of G [(x, Z.of_nat i)] e s
  end.
(** Process number [i] of the kind *)
Record member_is (ds : list nat) (roles : list role) (G : scope) (k : kdecl) (h : pc_head) (i : nat) (m : membr) : Prop := mkMemberIs {
  mi_number : m_number m = i;
  mi_index : forall s, ok ds s -> index_says G k i s = Some (m_index m);
  mi_lets : forall s, ok ds s -> with_lets (no_lets G) (indexed h m) s (kd_lets k) = Some (entering G h m);
  mi_vbls : forall s, ok ds s ->
    map snd (flat_map (accessed (entering G h m) (indexed h m) s) (kd_vbls k)) = map Some (p_vbls (m_pc m));
  mi_kind : kind_of (h_net h) (m_pc m) = declare (map (kind_decl ds roles (mkFile [] (g_arrays G) [])) (kd_vbls k))
}.
Record head_says (ds : list nat) (roles : list role) (G : scope) (k : kdecl) (h : pc_head) : Prop := mkHeadSays {
  hs_idx : h_idx h = kd_idx k;
  hs_count : forall s, ok ds s -> value_of G [] (kd_num k) s = Some (Z.of_nat (length (h_membs h)));
  hs_members : forall i m, nth_error (h_membs h) i = Some m -> member_is ds roles G k h i m;
  hs_domains : vdoms (h_net h) = ds /\ vroles (h_net h) = roles
}.
(** The entries of the file, with what is seen *)
Fixpoint entries_say (ds : list nat) (roles : list role) (G : scope) (l : list pentry) (its : list item) : Prop :=
  match l, its with
  | [], [] => True
  | General st :: l', Outside st' :: its' => st' = st /\ entries_say ds roles (after_outside G st) l' its'
  | Kind k body :: l', Inside h body' :: its' => body' = body /\ head_says ds roles G k h /\ entries_say ds roles G l' its'
  | _, _ => False
  end.

(** ** Files that can have been written *)
(** No index is used twice, no name is used twice for what cannot be told apart. *)
Definition plain_const (c : cdecl) : Prop :=
  match c with ConstInt _ e => fresh_indices [] e | ConstList _ es => es <> [] /\ Forall (fresh_indices []) es end.
Definition plain_vdecl (d : vdecl) : Prop := fresh_indices [] (vd_size d) /\ fresh_indices [] (vd_dom d).
Definition plain_kind (taken : list string) (k : kdecl) : Prop :=
  fresh_indices [] (kd_num k) /\ match kd_map k with None => True | Some (x, e) => fresh_indices [x] e end /\
  Forall (fun xe => fresh_indices [kd_idx k] (snd xe) /\ ~ In (fst xe) taken) (kd_lets k) /\
  Forall (plain_decl (kd_idx k)) (kd_vbls k).
Definition plain_stmt (used preds : list string) (st : stmt) : Prop :=
  match st with
  | Predicate x e => fresh_indices used e /\ ~ In x preds
  | Assume e | Legit _ e => fresh_indices used e
  | Act _ a | Permit a | Forbid a => fresh_command used a /\ any_last (a_assigns a)
  end.
(** [preds]: the predicates named outside so far *)
Fixpoint plain_entries (taken preds : list string) (l : list pentry) : Prop :=
  match l with
  | [] => True
  | General st :: l' =>
      match st with Predicate _ e | Assume e | Legit _ e => fresh_indices [] e | _ => True end /\
      plain_entries taken (match st with Predicate x _ => x :: preds | _ => preds end) l'
  | Kind k body :: l' => plain_kind taken k /\ Forall (plain_stmt [kd_idx k] preds) body /\ plain_entries taken preds l'
  end.
Record plain_text (given : list (string * list Z)) (t : ptext) : Prop := mkPlainText {
  px_given : forall x l, assoc x given = Some l -> l <> [];
  px_consts : Forall plain_const (pt_consts t);
  px_vbls : Forall plain_vdecl (pt_vbls t);
  px_once : forall d, In d (pt_vbls t) -> ~ In (vd_name d) (map fst given ++ map const_name (pt_consts t));
  px_entries : plain_entries (map fst given ++ map const_name (pt_consts t)) [] (pt_entries t)
}.
(** No process writes a variable twice over. *)
Definition writes_once (R : presult) : Prop :=
  forall h l m, In (Inside h l) (r_items R) -> In m (h_membs h) -> NoDup (own_wvbls (h_net h) (m_pc m)).
