(** What it means for a Promela model to be about a system of processes. *)
From Coq Require Import NArith.
From Verif Require Import UdpModel UdpSpec.
From Coq Require Import String List Arith Bool ZArith.
From Verif Require Import ParseModel AccessModel AccessSpec PrintModel FmlaModel FmlaSpec IntModel ExprModel ExprSpec ActModel ActSpec NetModel NetSpec UgenSpec PmlModel.
Import ListNotations.
Local Open Scope list_scope.

(** Expressions that mean the same in a protocol file and in C: no %, ^, min, max.  The level says which operators may be
    outermost: 0 none, 1 minus, 2 product and quotient, 3 sum and difference; all expressions that a protocol file can contain
    obey the levels. *)
Fixpoint c_like (l : nat) (e : sexp) : Prop :=
  match e with
  | SName _ | SNat _ => True
  | SInt a => c_like 3 a
  | SNeg a => 1 <= l /\ c_like 0 a
  | SBin MulOp a b | SBin DivOp a b => 2 <= l /\ c_like 2 a /\ c_like 1 b
  | SBin AddOp a b | SBin SubOp a b => 3 <= l /\ c_like 3 a /\ c_like 2 b
  | _ => False
  end.

(** Definitions each of which only uses the names [known] and those defined before. *)
Fixpoint in_order (known : list string) (l : list (string * sexp)) : Prop :=
  match l with
  | [] => True
  | (x, e) :: l' => c_like 3 e /\ incl (names_in e) known /\ in_order (x :: known) l'
  end.
Definition texts (l : list (string * sexp)) : list (string * list tok) := map (fun d => (fst d, print (snd d))) l.

(** The file declares the constants [cs], and a kind of processes with the lets [ls] and the text [kt]. [p] is its process number
    [j]; [G] are the declarations it sees and [ix] is the value of its index. *)
Record member_text (arrays : list (string * list nat)) (cs ls : list (string * sexp)) (kt : kind_text) (im : option (string * sexp))
    (G : scope) (j : nat) (ix : Z) (K : pcsymm) (p : process) : Prop := mkMemberText {
  (** constants and lets have the values of their expressions *)
  mt_consts : Forall (fun d => exists z l, value_of (mkScope [] [] (g_consts G) [] []) [] (snd d) [] = Some z /\ assoc (fst d) (g_consts G) = Some (z :: l)) cs;
  mt_lets : Forall (fun d => exists z, value_of G [(k_idx kt, ix)] (snd d) [] = Some z /\ assoc (fst d) (s_lets G) = Some z) ls;
  (** the index is the number, or what the index map makes of it *)
  mt_index : match im with
             | None => ix = Z.of_nat j
             | Some (x, e) => value_of (mkScope [] [] (g_consts G) [] []) [(x, Z.of_nat j)] e [] = Some ix
             end;
  (** every access is to the member of an array that its index says *)
  mt_slots : forall i, i < length (accs K) -> let sl := nth i (k_slots kt) slot0 in
    exists z l, value_of G [(k_idx kt, ix)] (sl_text sl) [] = Some z /\ nth_error (nth i (k_indices kt) []) j = Some z /\
      assoc (sl_array sl) arrays = Some l /\ l <> [] /\ member l z = Some (vbl_at p i);
  (** no name is declared twice *)
  mt_once : forall x, In x (map fst cs) -> x <> k_idx kt /\ assoc x (s_lets G) = None;
  mt_index_once : ~ In (k_idx kt) (map fst ls)
}.
(** ... whose expressions are alike in C. *)
Record kind_alike (cs ls : list (string * sexp)) (kt : kind_text) (im : option (string * sexp)) (K : pcsymm) : Prop := mkKindAlike {
  ka_lets : k_lets kt = texts ls;
  ka_idxmap : k_idxmap kt = option_map (fun d => (fst d, print (snd d))) im;
  ka_lets_like : in_order (k_idx kt :: map fst cs) ls;
  ka_index_like : forall x e, im = Some (x, e) -> c_like 3 e /\ incl (names_in e) (x :: map fst cs) /\ ~ In x (map fst cs);
  ka_slots_like : forall i, i < length (accs K) -> c_like 3 (sl_text (nth i (k_slots kt) slot0)) /\
    incl (names_in (sl_text (nth i (k_slots kt) slot0))) (map fst ls ++ k_idx kt :: map fst cs)
}.

(** The [j]-th process of kind [k]. *)
Definition jth_of_kind (O : network) (k j i : nat) (p : process) : Prop :=
  nth_error (pcs O) i = Some p /\ p_kind p = k /\
  length (filter (fun q => p_kind q =? k) (firstn i (pcs O))) = j.

(** A file with the constants [cs] and the arrays [arrays] that describes [O], in terms that SPIN understands in the same way. *)
Record describes_net (O : network) (arrays : list (string * list nat)) (cs : list (string * sexp)) (ks : list kind_text) : Prop := mkDescribes {
  dn_consts : in_order [] cs;
  dn_arrays : concat (map snd arrays) = seq 0 (length (vdoms O));
  dn_names : NoDup (map fst arrays);
  (** the variables of an array have the same domain, which fits in a byte *)
  dn_doms : forall x l v w, In (x, l) arrays -> In v l -> In w l -> nth v (vdoms O) 0 = nth w (vdoms O) 0;
  dn_bytes : Forall (fun d => d <= 256) (vdoms O);
  dn_kinds : forall k, k < length (kinds O) -> exists ls im, kind_alike cs ls (nth k ks kind_text0) im (nth k (kinds O) pc0) /\
    forall j i p, jth_of_kind O k j i p -> exists G ix, member_text arrays cs ls (nth k ks kind_text0) im G j ix (nth k (kinds O) pc0) p
}.

(** Process [i] takes a step of one of the actions. *)
Definition solution_step (O : network) (actions : list nat) (i : nat) (s t : list nat) : Prop :=
  exists a, In a actions /\ process_step O (action_xfmlae O true a) i s t.
(** What process [p] sees in [s] is compatible with the assumption of the process of [T] that stands for its kind. *)
Definition assumed_like (T O : network) (p : process) (s : list nat) : Prop :=
  exists j q, pattern T (p_kind p) j q /\ assumed T q (cells O p s).

(** A process of the Promela model can go from [s] to [t]; something goes wrong in [s]. *)
Definition promela_step (M : pmodel) (arrays : list (string * list nat)) (s t : list nat) : Prop :=
  exists pt pid o, In (pt, pid) (started 1 (m_proctypes M)) /\ In o (t_options pt) /\ run_option M arrays pt pid o s = Next t.
Definition promela_fault (M : pmodel) (arrays : list (string * list nat)) (s : list nat) : Prop :=
  exists pt pid o, In (pt, pid) (started 1 (m_proctypes M)) /\ In o (t_options pt) /\ run_option M arrays pt pid o s = Fault.
