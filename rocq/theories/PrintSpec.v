(** What an action in the output file says. *)
From Coq Require Import String List Arith Bool ZArith.
From Verif Require Import ParseModel IntModel ExprModel ExprSpec CmdModel CmdSpec AccessModel AccessSpec FmlaModel FmlaSpec ActModel ActSpec NetModel NetSpec.
Import ListNotations.

Section Spec.
Variable N : network.
Notation ds := (vdoms N).
(** Process [p] does in [s] what the action with the values [v] says, and gets to [t]: what it sees has the tested values,
    what it writes gets the assigned ones.  The action is not taken if it says to write what the process does not see, but
    changes nothing. *)
Record written_move (p : process) (v s t : list nat) : Prop := mkWritten {
  wm_guard : forall i, i < accesses N p -> visible (access_at N p i) -> value s p i = tested v i;
  wm_assign : forall i, i < accesses N p -> writable (access_at N p i) -> a_type (access_at N p i) <> RandomWriteAccess ->
    value t p i = if assigned (its_kind N p) v i =? a_dom (access_at N p i) then value s p i else assigned (its_kind N p) v i;
  wm_change : (exists i, i < accesses N p /\ writable (access_at N p i) /\ ~ visible (access_at N p i) /\
      assigned (its_kind N p) v i <> a_dom (access_at N p i)) ->
    exists x, own N p x /\ nth x t 0 <> nth x s 0
}.
(** The process sees the variables it accesses that change by themselves. *)
Definition sees_draws (p : process) : Prop :=
  forall i, i < accesses N p -> fickle N (vbl_at p i) ->
    exists j, j < accesses N p /\ visible (access_at N p j) /\ vbl_at p j = vbl_at p i.
(** It sees something. *)
Definition sees_something (p : process) : Prop := exists i, i < accesses N p /\ visible (access_at N p i).
End Spec.

(** An index without variables. *)
Fixpoint vbl_free (arrays : list (string * list nat)) (e : sexp) : Prop :=
  match e with
  | SInt a | SNeg a => vbl_free arrays a
  | SBin _ a b => vbl_free arrays a /\ vbl_free arrays b
  | SAref x a => assoc x arrays = None /\ vbl_free arrays a
  | _ => True
  end.

(** The processes [mbs] of the kind numbered [k] have come about by reading the declarations [ts]. *)
Record written_kind (N : network) (F : file) (idx : string) (lets : list (string * list Z)) (preds : list (string * list fmla))
    (names : list string) (G : nat -> scope) (k : nat) (ts : list tok) (sls : list slot) (mbs : list membr) : Prop := mkWrittenKind {
  (** The values of every block are tight or its indices are names (else: C72_names_refuted); no index depends on variables. *)
  wk_read : exists decls r ms, read_vbls names ts = (decls, r) /\ Forall (plain_decl idx) decls /\ Forall tight_decl decls /\
    all_slots decls = Some sls /\ Forall (fun sl => vbl_free (f_arrays F) (sl_text sl)) sls /\
    Forall (fun d => d_vbls d = [] /\ declares (vdoms N) F (Some (mkUse lets preds (d_number d) [])) (G (d_number d))) ms /\
    add_accesses (vdoms N) F idx lets preds ms sls = Some (map (fun mb => mkDraft (m_number mb) (m_index mb) (p_vbls (m_pc mb))) mbs);
  wk_kind : accs (nth k (kinds N) pc0) = map (slot_access (vdoms N) (vroles N) F) sls;
  wk_members : forall mb, In mb mbs -> In (m_pc mb) (pcs N) /\ p_kind (m_pc mb) = k /\ proper_process N (m_pc mb)
}.
(** Process [p'] is [p] with the solution for its protocol. *)
Record solved (N : network) (actions : list nat) (p p' : process) : Prop := mkSolved {
  sv_kind : p_kind p' = p_kind p;
  sv_vbls : p_vbls p' = p_vbls p;
  sv_rest : p_assume p' = p_assume p /\ p_permit p' = p_permit p /\ p_forbid p' = p_forbid p;
  sv_trans : trans_fmla (vdoms N) (p_puppet p');
  sv_puppet : forall s t, ok (vdoms N) s -> ok (vdoms N) t -> (FmlaSpec.steps (p_puppet p') s t <->
    FmlaSpec.steps (p_puppet p) s t \/
    exists a r, In a actions /\ r < actions_in (kinds N) /\ same_action_class (kinds N) a r /\
      act_pc (act_of (kinds N) r) = p_kind p /\ written_move N p (vals (act_of (kinds N) r)) s t)
}.
