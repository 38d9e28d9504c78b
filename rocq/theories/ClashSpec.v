(** What a list of conflicts in a protocol file is about. *)
From Coq Require Import String List Arith Bool ZArith.
From Verif Require Import FmlaModel FmlaSpec ActModel NetModel CmdModel DeclModel ClashModel.
Import ListNotations.

(** The first process of the kind whose accesses are to different variables *)
Definition first_unrepeated (mbs : list membr) (mb : membr) : Prop :=
  exists l1 l2, mbs = (l1 ++ mb :: l2)%list /\ NoDup (p_vbls (m_pc mb)) /\ forall m, In m l1 -> ~ NoDup (p_vbls (m_pc m)).

(** [a] is what the steps [R] of process [p] look like, all of them: the variables that are not only in the
    specification have the values that [a] tests before each step, and the written ones those that [a] assigns after
    it; for a variable of the specification only, nothing is tested, and "leave it" (the size of its domain) is
    assigned if all steps keep it. *)
Record looks_like (N : network) (p : process) (R : list nat -> list nat -> Prop) (a : act) : Prop := mkLooks {
  ll_kind : act_pc a = p_kind p;
  ll_length : length (vals a) = nr (kind_of N p) + nw (kind_of N p);
  ll_guard : forall i, i < nr (kind_of N p) ->
    (nth (rvbl p i) (vroles N) Direct = Shadow -> nth i (vals a) 0 = 0) /\
    (nth (rvbl p i) (vroles N) Direct <> Shadow ->
       forall s t, ok (vdoms N) s -> ok (vdoms N) t -> R s t -> nth (rvbl p i) s 0 = nth i (vals a) 0);
  ll_assign : forall w, w < nw (kind_of N p) ->
    let v := wvbl N p w in
    let keeps := nth v (vroles N) Direct = Shadow /\
                 (forall s t, ok (vdoms N) s -> ok (vdoms N) t -> R s t -> nth v t 0 = nth v s 0) in
    (keeps -> nth (nr (kind_of N p) + w) (vals a) 0 = nth v (vdoms N) 0) /\
    (~ keeps -> forall s t, ok (vdoms N) s -> ok (vdoms N) t -> R s t -> nth v t 0 = nth (nr (kind_of N p) + w) (vals a) 0)
}.

(** The file without its lists of conflicts *)
Definition plain_stmts (l : list pstmt) : list stmt := flat_map (fun st => match st with PStmt st => [st] | PConflict _ => [] end) l.
Definition without_conflicts (l : list pitem) : list item :=
  map (fun it => match it with POutside st => Outside st | PInside h l => Inside h (plain_stmts l) end) l.
