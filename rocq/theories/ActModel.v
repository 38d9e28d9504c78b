(** Actions of symmetric processes: numbering, link symmetries and the coexistence test.

    Models
      - /repo/src/xnspec.hh:195-300   access types and domain sizes,
      - /repo/src/xnsys.cc:31-56      Net::commit_initialization (offsets),
      - /repo/src/xnsys.cc:275-357    action_pcsymm_index, act_of, action_pre_index,
                                      action_img_index, representative_action_index,
      - /repo/src/xnpc.cc:43-72,153-173  swap_vals, id_of, PcSymm::act_of,
      - /repo/src/prot-xfile.cc:259-358  positions given to `symmetric` blocks,
      - /repo/src/synthesis.cc:17-123 coexist_ck,
      - /repo/src/synthesis.cc:694-735 QuickTrim.
    Machine words are natural numbers: the products of domain sizes are assumed to fit. *)
From Coq Require Import List Arith Bool.
From Verif Require Import FinLib Radix.
Import ListNotations.

(** xnspec.hh:23-31 *)
Inductive atype := ReadAccess | WriteAccess | YieldAccess | EffectAccess
                 | RandomReadAccess | RandomWriteAccess.
(** xnspec.hh:33-38 *)
Inductive role := Direct | Shadow | Puppet.

(** xnspec.hh:195-227.  One access of a process to a variable.  The name and the index expression
    are dropped; [a_dom] is the domain size of the accessed variable. *)
Record access := { a_type : atype; a_role : role; a_dom : nat }.

(** xnspec.hh:212-214 *)
Definition pure_shadow_ck (a : access) : bool :=
  match a_role a with Shadow => true | _ => false end.
Definition puppet_ck (a : access) : bool :=
  match a_role a with Shadow => false | _ => true end.
(** xnspec.hh:229-237 *)
Definition write_ck (a : access) : bool :=
  match a_type a with
  | WriteAccess | YieldAccess | EffectAccess | RandomWriteAccess => true | _ => false end.
(** xnspec.hh:238-246 *)
Definition read_ck (a : access) : bool :=
  match a_type a with
  | ReadAccess | WriteAccess | RandomReadAccess | RandomWriteAccess => true | _ => false end.
(** xnspec.hh:248-250 *)
Definition synt_read_ck (a : access) : bool := read_ck a && puppet_ck a.
(** xnspec.hh:258-260 *)
Definition synt_writeonly_ck (a : access) : bool := negb (synt_read_ck a) && write_ck a.
(** xnspec.hh:262-263 *)
Definition random_read_ck (a : access) : bool :=
  match a_type a with RandomReadAccess => true | _ => false end.
Definition random_write_ck (a : access) : bool :=
  match a_type a with RandomWriteAccess => true | _ => false end.
(** xnspec.hh:275-278 *)
Definition rdomsz (a : access) : nat := if synt_read_ck a then a_dom a else 1.
(** xnspec.hh:279-285 *)
Definition wdomsz (a : access) : nat :=
  if negb (write_ck a) then 0
  else if random_write_ck a then 1
  else if pure_shadow_ck a then a_dom a + 1
  else match a_type a with EffectAccess => a_dom a + 1 | _ => a_dom a end.

(** xnspec.hh:125-160.  A link symmetry: [nlinks] and one row of access positions per variable;
    [ob(v, l)] is [nth l (nth v rows) 0]. *)
Record links := { nlinks : nat; rows : list (list nat) }.

(** xnspec.hh:288-305, xnpc.hh:193-217.  A kind of process. *)
Record pcsymm := { accs : list access; symms : list links }.

Definition acc0 : access := {| a_type := ReadAccess; a_role := Direct; a_dom := 0 |}.
Definition acc (pc : pcsymm) (i : nat) : access := nth i (accs pc) acc0.
(** rvbl_symms.sz(): every access is listed (xnsys.cc:235) *)
Definition nr (pc : pcsymm) : nat := length (accs pc).
(** spec->wmap (xnsys.cc:243-246): the positions of the accesses that may be written, in order *)
Definition wmap (pc : pcsymm) : list nat :=
  filter (fun i => write_ck (acc pc i)) (seq 0 (nr pc)).
Definition nw (pc : pcsymm) : nat := length (wmap pc).

(** PcSymm::doms (xnsys.cc:37-49) *)
Definition rdoms (pc : pcsymm) : list nat := map rdomsz (accs pc).
Definition wdoms (pc : pcsymm) : list nat := map (fun i => wdomsz (acc pc i)) (wmap pc).
Definition doms (pc : pcsymm) : list nat := rdoms pc ++ wdoms pc.
(** pre_domsz, img_domsz, n_possible_acts (xnsys.cc:36-53) *)
Definition pre_domsz (pc : pcsymm) : nat := fold_left Nat.mul (rdoms pc) 1.
Definition img_domsz (pc : pcsymm) : nat := fold_left Nat.mul (wdoms pc) 1.
Definition n_possible_acts (pc : pcsymm) : nat := pre_domsz pc * img_domsz pc.

(** xnsys.cc:28-56.  The offsets are the running totals. *)
Record committed := { c_pc : pcsymm; act_idx_offset : nat; pre_dom_offset : nat }.
Fixpoint commit_from (ntotal total_pre : nat) (net : list pcsymm) : list committed :=
  match net with
  | [] => []
  | pc :: net' =>
      {| c_pc := pc; act_idx_offset := ntotal; pre_dom_offset := total_pre |}
      :: commit_from (ntotal + n_possible_acts pc) (total_pre + pre_domsz pc) net'
  end.
Definition commit (net : list pcsymm) : list committed := commit_from 0 0 net.
(** Net::n_possible_acts (xnsys.cc:53-56) *)
Definition total_acts (net : list pcsymm) : nat :=
  fold_left (fun n pc => n + n_possible_acts pc) net 0.

Definition pc0 : pcsymm := {| accs := []; symms := [] |}.
Definition com0 : committed := {| c_pc := pc0; act_idx_offset := 0; pre_dom_offset := 0 |}.
Definition com (net : list pcsymm) (i : nat) : committed := nth i (commit net) com0.

(** xnsys.cc:275-284 *)
Fixpoint pcsymm_index_from (i : nat) (cs : list committed) (actidx : nat) : nat :=
  match cs with
  | [] => i
  | c :: cs' =>
      match cs' with
      | [] => i
      | c' :: _ => if actidx <? act_idx_offset c' then i else pcsymm_index_from (S i) cs' actidx
      end
  end.
Definition action_pcsymm_index (net : list pcsymm) (actidx : nat) : nat :=
  pcsymm_index_from 0 (commit net) actidx.

(** An ActSymm (xnpc.hh:136-144): the kind of process (as an index instead of a pointer) and the
    values: one per access, then one per written access.  The cached [pre_idx], [img_idx] and
    [pre_idx_of_img] are functions of these. *)
Record act := { act_pc : nat; vals : list nat }.

(** xnsys.cc:286-294, xnpc.cc:153-173 *)
Definition act_of (net : list pcsymm) (actidx : nat) : act :=
  let i := action_pcsymm_index net actidx in
  {| act_pc := i;
     vals := state_of_index (actidx - act_idx_offset (com net i)) (doms (c_pc (com net i))) |}.

(** xnpc.cc:68-72 *)
Definition id_of (net : list pcsymm) (a : act) : nat :=
  act_idx_offset (com net (act_pc a)) + index_of_state (vals a) (doms (c_pc (com net (act_pc a)))).

(** xnsys.cc:296-304 *)
Definition action_pre_index (net : list pcsymm) (actidx : nat) : nat :=
  let c := com net (action_pcsymm_index net actidx) in
  (actidx - act_idx_offset c) / img_domsz (c_pc c) + pre_dom_offset c.
(** xnsys.cc:306-313 *)
Definition action_img_index (net : list pcsymm) (actidx : nat) : nat :=
  let c := com net (action_pcsymm_index net actidx) in
  (actidx - act_idx_offset c) mod img_domsz (c_pc c).

(** guard, assign, aguard (xnpc.hh:260-262) *)
Definition guard (v : list nat) (i : nat) : nat := nth i v 0.
Definition assign (pc : pcsymm) (v : list nat) (w : nat) : nat := nth (nr pc + w) v 0.
Definition aguard (pc : pcsymm) (v : list nat) (w : nat) : nat := nth (nth w (wmap pc) 0) v 0.

(** SwapT on two cells of an array *)
Definition swap_cells (p q : nat) (v : list nat) : list nat :=
  map (fun k => nth (if k =? p then q else if k =? q then p else k) v 0) (seq 0 (length v)).

(** The loop of xnpc.cc:53-60: the last [i] with [wmap[i] == ridx]. *)
Fixpoint last_index (i : nat) (l : list nat) (x : nat) (found : nat) : nat :=
  match l with
  | [] => found
  | y :: l' => last_index (S i) l' x (if y =? x then i else found)
  end.
Definition widx (pc : pcsymm) (ridx : nat) : nat := last_index 0 (wmap pc) ridx 0.

(** xnpc.cc:43-66.  The Claims (both positions are writable if one of them is) are preconditions
    of the theorems. *)
Definition swap_vals (pc : pcsymm) (p q : nat) (v : list nat) : list nat :=
  let v1 := swap_cells p q v in
  if write_ck (acc pc p) || write_ck (acc pc q)
  then swap_cells (nr pc + widx pc p) (nr pc + widx pc q) v1
  else v1.

(** Lexicographic order on Table<uint> (cx library). *)
Fixpoint lex_lt (u v : list nat) : bool :=
  match u, v with
  | [], _ :: _ => true
  | _, [] => false
  | x :: u', y :: v' => (x <? y) || ((x =? y) && lex_lt u' v')
  end.

(** xnsys.cc:331-334: exchange two adjacent links of one symmetry. *)
Definition swap_links (pc : pcsymm) (k : links) (l : nat) (v : list nat) : list nat :=
  fold_left (fun v row => swap_vals pc (nth l row 0) (nth (S l) row 0) v) (rows k) v.

(** xnsys.cc:330-339 *)
Definition try_swap (pc : pcsymm) (k : links) (st : list nat * bool) (l : nat) : list nat * bool :=
  let tmp := swap_links pc k l (fst st) in
  if lex_lt tmp (fst st) then (tmp, true) else st.

(** xnsys.cc:326-341: one round over all symmetries and all adjacent links. *)
Definition rep_round (pc : pcsymm) (v : list nat) : list nat * bool :=
  fold_left (fun st k => fold_left (try_swap pc k) (seq 0 (nlinks k - 1)) st) (symms pc) (v, false).

(** xnsys.cc:324-342: the while loop.  The fuel bounds the number of rounds; running out is
    reported as [None]. *)
Fixpoint rep_loop (fuel : nat) (pc : pcsymm) (v : list nat) : option (list nat) :=
  match fuel with
  | 0 => None
  | S f => let (v', changed) := rep_round pc v in
           if changed then rep_loop f pc v' else Some v'
  end.

(** xnsys.cc:315-357.  The fuel is the number of the action plus one. *)
Definition representative_action_index (net : list pcsymm) (actidx : nat) : option nat :=
  let a := act_of net actidx in
  match rep_loop (S actidx) (c_pc (com net (act_pc a))) (vals a) with
  | None => None
  | Some v => Some (id_of net {| act_pc := act_pc a; vals := v |})
  end.

(** xnsys.cc:81-85: the actions collected under a representative. *)
Definition represented_actions (net : list pcsymm) (rep : nat) : list nat :=
  filter (fun a => match representative_action_index net a with
                   | Some r => r =? rep | None => false end)
         (seq 0 (total_acts net)).

(** prot-xfile.cc:259-358.  Declarations of a process: a plain access, or a `symmetric` block with
    a number of links and one access per variable of the block.  The accesses of a block are
    pushed variable by variable, and link by link within a variable. *)
Inductive decl := Plain (a : access) | Symmetric (n : nat) (vs : list access).

(** prot-xfile.cc:313-354: the accesses pushed for a block *)
Definition decl_accs (d : decl) : list access :=
  match d with Plain a => [a] | Symmetric n vs => flat_map (fun a => repeat a n) vs end.
(** prot-xfile.cc:338,351: the rows of positions recorded for a block that starts at [base] *)
Fixpoint block_rows (base n m : nat) : list (list nat) :=
  match m with 0 => [] | S m' => seq base n :: block_rows (base + n) n m' end.
Fixpoint decl_symms (base : nat) (ds : list decl) : list links :=
  match ds with
  | [] => []
  | Plain _ :: ds' => decl_symms (S base) ds'
  | Symmetric n vs :: ds' =>
      {| nlinks := n; rows := block_rows base n (length vs) |}
      :: decl_symms (base + n * length vs) ds'
  end.
Definition declare (ds : list decl) : pcsymm :=
  {| accs := flat_map decl_accs ds; symms := decl_symms 0 ds |}.

(** Two actions of one kind of process, as value lists.  synthesis.cc:24-31 *)
Definition readable_adj_eql (pc : pcsymm) (a b : list nat) : bool :=
  forallb (fun i => negb (synt_read_ck (acc pc i)) || (guard a i =? guard b i)) (seq 0 (nr pc)).
Definition waccess (pc : pcsymm) (w : nat) : access := acc pc (nth w (wmap pc) 0).
(** synthesis.cc:33-49 *)
Definition random_write (pc : pcsymm) : bool :=
  existsb (fun w => random_write_ck (waccess pc w)) (seq 0 (nw pc)).
Definition readable_img_eql (pc : pcsymm) (a b : list nat) : bool :=
  forallb (fun w => negb (synt_read_ck (waccess pc w)) || (assign pc a w =? assign pc b w))
          (seq 0 (nw pc)).
Definition writeonly_img_eql (pc : pcsymm) (a b : list nat) : bool :=
  forallb (fun w => synt_read_ck (waccess pc w) ||
             negb (negb (a_dom (waccess pc w) =? assign pc a w)
                   && negb (a_dom (waccess pc w) =? assign pc b w)
                   && negb (assign pc a w =? assign pc b w)))
          (seq 0 (nw pc)).
(** synthesis.cc:57-68.  The loop leaves as soon as [enabling] is false. *)
Fixpoint guards_differ (pc : pcsymm) (a b : list nat) (js : list nat) (deterministic : bool)
  : bool * bool :=
  match js with
  | [] => (deterministic, true)
  | j :: js' =>
      if negb (synt_read_ck (acc pc j)) then guards_differ pc a b js' deterministic
      else if guard a j =? guard b j then guards_differ pc a b js' deterministic
      else if negb (write_ck (acc pc j)) && negb (random_read_ck (acc pc j))
           then (true, false)
           else guards_differ pc a b js' true
  end.
(** synthesis.cc:74-97 *)
Definition writeonly_exists (pc : pcsymm) : bool :=
  existsb (fun w => synt_writeonly_ck (waccess pc w)) (seq 0 (nw pc)).
Definition self_loop (pc : pcsymm) (a : list nat) : bool :=
  forallb (fun w => synt_writeonly_ck (waccess pc w) || (assign pc a w =? aguard pc a w))
          (seq 0 (nw pc)).
Definition enables (pc : pcsymm) (a b : list nat) : bool :=
  forallb (fun w => synt_writeonly_ck (waccess pc w) || (assign pc a w =? aguard pc b w))
          (seq 0 (nw pc)).
(** synthesis.cc:104-108: the guard of [a] with the assignments of [b] *)
Definition chained (pc : pcsymm) (a b : list nat) : list nat :=
  firstn (nr pc) a ++ skipn (nr pc) b.

(** synthesis.cc:17-123, for two actions of the same kind of process.  [safe] stands for
    Net::safe_ck (xnsys.cc:397-415). *)
Definition coexist_vals (safe : list nat -> bool) (force_disabling pure_actions : bool)
           (pc : pcsymm) (a b : list nat) : bool :=
  if readable_adj_eql pc a b && readable_img_eql pc a b && negb (writeonly_img_eql pc a b)
  then false
  else if pure_actions && readable_adj_eql pc a b && negb (readable_img_eql pc a b)
  then false
  else
    let (deterministic, enabling) := guards_differ pc a b (seq 0 (nr pc)) false in
    if negb deterministic then false
    else if negb enabling then true
    else if random_write pc then true
    else if negb (writeonly_exists pc) && (self_loop pc a || self_loop pc b) then false
    else if enables pc a b && negb (self_loop pc b) then
      if force_disabling then false else negb (safe (chained pc a b))
    else if enables pc b a && negb (self_loop pc a) then
      if force_disabling then false else negb (safe (chained pc b a))
    else true.

(** synthesis.cc:21 and the rest *)
Definition coexist_ck (safe : act -> bool) (force_disabling pure_actions : bool)
           (net : list pcsymm) (a b : act) : bool :=
  if negb (act_pc a =? act_pc b) then true
  else coexist_vals (fun v => safe {| act_pc := act_pc a; vals := v |})
         force_disabling pure_actions (c_pc (com net (act_pc a))) (vals a) (vals b).

(** synthesis.cc:694-735 (QuickTrim): the candidates to delete when [actidx] is used *)
Definition quick_trim (safe : act -> bool) (force_disabling pure_actions : bool)
           (net : list pcsymm) (candidates : list nat) (actidx : nat) : list nat :=
  filter (fun c => negb (c =? actidx) &&
            existsb (fun r => negb (coexist_ck safe force_disabling pure_actions net
                                      (act_of net r) (act_of net c)))
                    (represented_actions net actidx))
         candidates.
