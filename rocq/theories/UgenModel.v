(** The code generator for the UDP implementation, /repo/src/udp-ofile.cc.

    The printed C functions are represented by what is variable in them: the
    numbers, the order of the tests and the branches.  Their layout is not
    modelled.  [exec_...] run such a function the way C does.  Cells of the array
    x are natural numbers: values are assumed to fit in a byte.

    [T] is the network the actions belong to (sys.topology), [O] the one code is
    printed for (o_topology); they have the same kinds of processes but may have
    different numbers of processes. *)
From Coq Require Import NArith.
From Verif Require Import UdpModel.
From Coq Require Import List Arith Bool.
From Verif Require Import FinLib Radix FmlaModel ActModel NetModel.
Import ListNotations.

(** udp-ofile.cc:11-15. *)
Record gvar := mkVar { g_vbl : nat; g_dom : nat; g_writing : bool }.
(** udp-ofile.cc:16-19. *)
Record uchan := mkUchan { u_pc : nat; u_vbls : list nat }.

(** The positions of the accesses of a kind that pass "skip_unless (puppet_ck())"
    (udp-ofile.cc:43, 200, 253, 344). *)
Definition puppets (k : pcsymm) : list nat := filter (fun i => puppet_ck (acc k i)) (seq 0 (nr k)).

(** udp-ofile.cc:39-51: Process::vbls. *)
Definition udp_vbls (N : network) (p : process) : list gvar :=
  map (fun i => mkVar (rvbl p i) (a_dom (acc (kind_of N p) i)) (write_ck (acc (kind_of N p) i)))
      (puppets (kind_of N p)).
Definition tables (O : network) : list (list gvar) := map (udp_vbls O) (pcs O).
(** udp-ofile.cc:49: local_idcs; a later position replaces an earlier one. *)
Definition local_idx (vs : list gvar) (v : nat) : nat := last_index 0 (map g_vbl vs) v 0.

(** udp-ofile.cc:53-55 (with [writing]) and 63-66. *)
Definition claim (writing : bool) (n pcidx : nat) (own : list nat) (v : gvar) : list nat :=
  if (negb writing || g_writing v) && (nth (g_vbl v) own n =? n) then upd own (g_vbl v) pcidx else own.
Definition claims (writing : bool) (n : nat) (vss : list (list gvar)) (own : list nat) : list nat :=
  fold_left (fun own iv => fold_left (claim writing n (fst iv)) (snd iv) own)
    (combine (seq 0 (length vss)) vss) own.
(** udp-ofile.cc:31-68: the process that owns each variable; n if there is none. *)
Definition owning (O : network) : list nat :=
  let vss := tables O in
  let n := length vss in
  claims false n vss (claims true n vss (repeat n (length (vdoms O)))).

(** Map::ensure and grow1 (udp-ofile.cc:76-81, 95-101).  The map from processes to
    places in [chans] is not kept: the place is looked up. *)
Definition ensure (o : nat) (chs : list uchan) : list uchan :=
  if existsb (fun c => u_pc c =? o) chs then chs else chs ++ [mkUchan o []].
Fixpoint chan_idx (o : nat) (chs : list uchan) : nat :=
  match chs with [] => 0 | c :: chs' => if u_pc c =? o then 0 else S (chan_idx o chs') end.
(** udp-ofile.cc:70-83: the channels of one process to the owners of what it reads. *)
Definition chans_to (own : list nat) (n pcidx : nat) (vs : list gvar) : list uchan :=
  fold_left (fun chs v =>
      let o := nth (g_vbl v) own n in if o =? pcidx then chs else ensure o chs) vs [].
(** udp-ofile.cc:85-104: and those from the readers, with the variables to send. *)
Definition push_vbl (pcidx v : nat) (chs : list uchan) : list uchan :=
  map (fun c => if u_pc c =? pcidx then mkUchan (u_pc c) (u_vbls c ++ [v]) else c) chs.
Definition chan_from (own : list nat) (n pcidx : nat) (tbl : list (list uchan)) (v : gvar) : list (list uchan) :=
  let o := nth (g_vbl v) own n in
  if o =? pcidx then tbl else upd tbl o (push_vbl pcidx (g_vbl v) (ensure pcidx (nth o tbl []))).
Definition chans_of (O : network) : list (list uchan) :=
  let vss := tables O in
  let n := length vss in
  let own := owning O in
  let ivs := combine (seq 0 n) vss in
  fold_left (fun tbl iv => fold_left (chan_from own n (fst iv)) (snd iv) tbl) ivs
    (map (fun iv => chans_to own n (fst iv) (snd iv)) ivs).

(** A sequence "if (pc.idx < c1) b1 else if (pc.idx < c2) b2 ...". *)
Definition chain (A : Type) : Type := list (nat * A).
Definition exec_chain {A} (c : chain A) (pcidx : nat) : option A :=
  match find (fun b => pcidx <? fst b) c with Some b => Some (snd b) | None => None end.

(** ** process_of_channel, udp-ofile.cc:123-143 *)
Definition gen_process_of_channel (O : network) : list (list nat) := map (map u_pc) (chans_of O).
(** The macro T; after the last one, and for other processes, pc.idx is returned. *)
Fixpoint exec_T (rets : list nat) (channel_idx pcidx : nat) : nat :=
  match rets with
  | [] => pcidx
  | r :: rets' => if channel_idx =? 0 then r else exec_T rets' (channel_idx - 1) pcidx
  end.
Definition exec_process_of_channel (code : list (list nat)) (pcidx channel_idx : nat) : nat :=
  exec_T (nth pcidx code []) channel_idx pcidx.

(** ** variable_of_channel, udp-ofile.cc:145-190 *)
(** One line "if (channel_idx==c && i==j) return r;". *)
Record line := mkLine { l_chan : nat; l_i : nat; l_ret : nat }.
(** The lines for writing and those for reading. *)
Definition vbody : Type := (list line * list line)%type.
Definition lines (vs : list gvar) (vbls : list (list nat)) : list line :=
  flat_map (fun cv => map (fun iv => mkLine (fst cv) (fst iv) (local_idx vs (snd iv)))
                          (combine (seq 0 (length (snd cv))) (snd cv)))
           (combine (seq 0 (length vbls)) vbls).
(** udp-ofile.cc:154-162 and 163-173. *)
Definition vbody_of (O : network) (pcidx : nat) : vbody :=
  let vs := nth pcidx (tables O) [] in
  let chs := nth pcidx (chans_of O) [] in
  (lines vs (map u_vbls chs),
   lines vs (map (fun c => let other := nth (u_pc c) (chans_of O) [] in
                           u_vbls (nth (chan_idx pcidx other) other (mkUchan 0 []))) chs)).
Definition line_eqb (a b : line) : bool :=
  (l_chan a =? l_chan b) && (l_i a =? l_i b) && (l_ret a =? l_ret b).
Fixpoint list_eqb {A} (eqb : A -> A -> bool) (a b : list A) : bool :=
  match a, b with
  | [], [] => true
  | x :: a', y :: b' => eqb x y && list_eqb eqb a' b'
  | _, _ => false
  end.
Definition vbody_eqb (a b : vbody) : bool :=
  list_eqb line_eqb (fst a) (fst b) && list_eqb line_eqb (snd a) (snd b).
(** udp-ofile.cc:151-153, 175-185: equal texts of consecutive processes are printed once. *)
Fixpoint merge (i : nat) (prev : option vbody) (bs : list vbody) : chain vbody :=
  match bs with
  | [] => match prev with None => [] | Some b => [(i, b)] end
  | b :: bs' =>
      match prev with
      | None => merge (S i) (Some b) bs'
      | Some b0 => if vbody_eqb b b0 then merge (S i) prev bs' else (i, b0) :: merge (S i) (Some b) bs'
      end
  end.
Definition gen_variable_of_channel (O : network) : chain vbody :=
  merge 0 None (map (vbody_of O) (seq 0 (length (pcs O)))).
Definition exec_lines (ls : list line) (max_nvbls channel_idx i : nat) : nat :=
  match find (fun l => (channel_idx =? l_chan l) && (i =? l_i l)) ls with
  | Some l => l_ret l | None => max_nvbls end.
Definition exec_variable_of_channel (code : chain vbody) (max_nvbls pcidx channel_idx i : nat) (writing : bool) : nat :=
  match exec_chain code pcidx with
  | None => max_nvbls
  | Some b => exec_lines (if writing then fst b else snd b) max_nvbls channel_idx i
  end.
(** udp-ofile.cc:107-121 *)
Definition max_nvbls (O : network) : nat := fold_left Nat.max (map (@length _) (tables O)) 0.
Definition max_nchannels (O : network) : nat := fold_left Nat.max (map (@length _) (chans_of O)) 0.

(** ** The functions printed per kind: the loops of udp-ofile.cc:191-207, 219-229 and
    327-333.  Kinds without members in [T] are left out; the bound counts members in [O]. *)
Fixpoint by_kind {A} (T O : network) (f : nat -> A) (ks : list nat) (cutoff : nat) : chain A :=
  match ks with
  | [] => []
  | k :: ks' =>
      if length (membs T k) =? 0 then by_kind T O f ks' cutoff
      else let cutoff := cutoff + length (membs O k) in
           (cutoff, f k) :: by_kind T O f ks' cutoff
  end.
Definition per_kind {A} (T O : network) (f : nat -> A) : chain A := by_kind T O f (seq 0 (length (kinds T))) 0.

(** domsz_of_variable, udp-ofile.cc:191-214 *)
Definition gen_domsz (T O : network) : chain (list nat) :=
  per_kind T O (fun k => let kd := nth k (kinds T) pc0 in map (fun i => a_dom (acc kd i)) (puppets kd)).
Definition exec_domsz (code : chain (list nat)) (pcidx vbl_idx : nat) : nat :=
  match exec_chain code pcidx with None => 0 | Some b => nth vbl_idx b 0 end.

(** A test "x[i]==c && ..." and assignments "x[i]=c; ...". *)
Definition exec_cond (cond : list (nat * nat)) (x : list nat) : bool :=
  forallb (fun ic => nth (fst ic) x 0 =? snd ic) cond.
Definition exec_assign (todo : list (nat * nat)) (x : list nat) : list nat :=
  fold_left (fun x ic => upd x (fst ic) (snd ic)) todo x.

(** ** assume_assign, udp-ofile.cc:215-303 *)
Record aclause := mkAclause { a_cond : list (nat * nat); a_todo : list (nat * nat) }.
Section Assume.
Variable T : network.
Notation ds := (vdoms T).
(** udp-ofile.cc:251-268: the places in x, and the accesses, of the variables the
    assumption depends on. *)
Definition matters (p : process) : list (nat * nat) :=
  filter (fun ji => negb (equiv_ck ds (p_assume p) (smooth_vbls ds (p_assume p) [rvbl p (snd ji)] Pre)))
    (combine (seq 0 (length (puppets (kind_of T p)))) (puppets (kind_of T p))).
Definition matters_w (p : process) : list (nat * nat) :=
  filter (fun ji => write_ck (acc (kind_of T p) (snd ji))) (matters p).
(** udp-ofile.cc:276-281 *)
Definition fixed_pf (p : process) : fmla :=
  not_PFmla (fold_left (fun f i => if write_ck (acc (kind_of T p) i) then f else smooth_vbls ds f [rvbl p i] Pre)
               (seq 0 (nr (kind_of T p))) (not_PFmla (p_assume p))).
(** udp-ofile.cc:288-310.  None: the fuel ran out or no state could be chosen. *)
Fixpoint assume_loop (fuel : nat) (p : process) (img_state : list nat) (bad : fmla) : option (list aclause) :=
  match fuel with
  | 0 => None
  | S fuel' =>
      if sat_ck ds bad then
        let ids := map (fun ji => rvbl p (snd ji)) (matters p) in
        match state_of_PFmla ds bad ids with
        | None => None
        | Some pre_state =>
            match assume_loop fuel' p img_state (nimp_PFmla bad (of_state ds pre_state ids)) with
            | None => None
            | Some cs => Some (mkAclause (combine (map fst (matters p)) pre_state)
                                         (combine (map fst (matters_w p)) img_state) :: cs)
            end
        end
      else Some []
  end.
(** udp-ofile.cc:230-310 for one kind.  None: failout_sysCx of line 283 ("can't fix
    itself"), or out of fuel. *)
Definition gen_assume_kind (fuel : nat) (k : nat) : option (list aclause) :=
  match some_memb T k with
  | None => Some []
  | Some (_, p) =>
      if tautology_ck ds (p_assume p) then Some []
      else if negb (sat_ck ds (fixed_pf p)) then None
      else
        match state_of_PFmla ds (fixed_pf p) (map (fun ji => rvbl p (snd ji)) (matters_w p)) with
        | None => None
        | Some img_state => assume_loop fuel p img_state (not_PFmla (p_assume p))
        end
  end.
End Assume.
Definition exec_assume_body (cs : list aclause) (x : list nat) : list nat :=
  match find (fun c => exec_cond (a_cond c) x) cs with Some c => exec_assign (a_todo c) x | None => x end.
Definition exec_assume (code : chain (list aclause)) (pcidx : nat) (x : list nat) : list nat :=
  match exec_chain code pcidx with None => x | Some cs => exec_assume_body cs x end.

(** ** action_assign, udp-ofile.cc:305-412 *)
(** A test and the alternatives; with more than one there is a switch over a random number. *)
Record xclause := mkXclause { x_cond : list (nat * nat); x_choices : list (list (nat * nat)) }.
(** The random assignments "x[i] = RandomMod(d);" and the tests. *)
Record xbody := mkXbody { x_random : list (nat * nat); x_clauses : list xclause }.
Section Actions.
Variable T : network.
Variable lw : bool.
Notation ds := (vdoms T).
(** udp-ofile.cc:312-325 *)
Definition rep_xn (actions : list nat) (k : nat) : fmla :=
  match some_memb T k with
  | None => Cst false
  | Some ip => fold_left (fun x a => if action_pcsymm_index (kinds T) a =? k
                                     then or_PFmla x (represented_xns_of_pc T lw a ip) else x) actions (Cst false)
  end.
(** udp-ofile.cc:342-356 *)
Definition read_ids (p : process) : list nat := map (rvbl p) (puppets (kind_of T p)).
Definition write_places (p : process) : list (nat * nat) :=
  filter (fun ji => write_ck (acc (kind_of T p) (snd ji)))
    (combine (seq 0 (length (puppets (kind_of T p)))) (puppets (kind_of T p))).
Definition write_ids (p : process) : list nat := map (fun ji => rvbl p (snd ji)) (write_places p).
Definition random_places (p : process) : list (nat * nat) :=
  map (fun ji => (fst ji, a_dom (acc (kind_of T p) (snd ji))))
    (filter (fun ji => existsb (Nat.eqb (rvbl p (snd ji))) (random_vbls T))
       (combine (seq 0 (length (puppets (kind_of T p)))) (puppets (kind_of T p)))).
(** udp-ofile.cc:378-389 *)
Fixpoint choice_loop (fuel : nat) (p : process) (pre_pf img_pf : fmla) : option (list (list (nat * nat))) :=
  match fuel with
  | 0 => None
  | S fuel' =>
      if sat_ck ds img_pf then
        match state_of_PFmla ds img_pf (write_ids p) with
        | None => None
        | Some img_state =>
            let tmp_pf := of_state ds img_state (write_ids p) in
            match choice_loop fuel' p pre_pf (nimp_PFmla img_pf tmp_pf) with
            | None => None
            | Some cs => Some (if subseteq_ck ds pre_pf tmp_pf then cs
                               else combine (map fst (write_places p)) img_state :: cs)
            end
        end
      else Some []
  end.
(** udp-ofile.cc:364-408 *)
Fixpoint clause_loop (fuel : nat) (p : process) (x : fmla) : option (list xclause) :=
  match fuel with
  | 0 => None
  | S fuel' =>
      if sat_ck ds x then
        match state_of_PFmla ds x (read_ids p) with
        | None => None
        | Some pre_state =>
            let pre_pf := of_state ds pre_state (read_ids p) in
            match choice_loop fuel' p pre_pf (img1_PFmla ds x pre_pf), clause_loop fuel' p (nimp_PFmla x pre_pf) with
            | Some cs, Some cls => Some (mkXclause (combine (seq 0 (length pre_state)) pre_state) cs :: cls)
            | _, _ => None
            end
        end
      else Some []
  end.
Definition gen_action_kind (fuel : nat) (actions : list nat) (k : nat) : option xbody :=
  match some_memb T k with
  | None => Some (mkXbody [] [])
  | Some (_, p) =>
      match clause_loop fuel p (rep_xn actions k) with
      | None => None
      | Some cls => Some (mkXbody (random_places p) cls)
      end
  end.
End Actions.
(** [rs j] is the j-th random number drawn; RandomMod(n) is its remainder. *)
Fixpoint redraw (rs : nat -> nat) (j : nat) (rnd : list (nat * nat)) (x : list nat) : list nat :=
  match rnd with
  | [] => x
  | (i, d) :: rnd' => redraw rs (S j) rnd' (upd x i (rs j mod d))
  end.
Definition exec_choice (r : nat) (cs : list (list (nat * nat))) (x : list nat) : list nat :=
  match cs with
  | [] => x
  | [c] => exec_assign c x
  | _ => exec_assign (nth (r mod length cs) cs []) x
  end.
(** udp-ofile.cc:307-309, 345-348, 371-377, 390-411 *)
Definition exec_action_body (b : xbody) (rs : nat -> nat) (x : list nat) : list nat :=
  let tmp_x := x in
  let x := redraw rs 0 (x_random b) x in
  match find (fun c => exec_cond (x_cond c) x) (x_clauses b) with
  | Some c => exec_choice (rs (length (x_random b))) (x_choices c) x
  | None => tmp_x
  end.
Definition exec_action (code : chain xbody) (pcidx : nat) (rs : nat -> nat) (x : list nat) : list nat :=
  match exec_chain code pcidx with None => x | Some b => exec_action_body b rs x end.

(** ** The whole file, udp-ofile.cc:28-419 *)
Record udp_file := mkFile {
  f_nvariables : nat;
  f_nchannels : nat;
  f_nprocesses : nat;
  f_process_of_channel : list (list nat);
  f_variable_of_channel : chain vbody;
  f_domsz : chain (list nat);
  f_assume : chain (list aclause);
  f_action : chain xbody }.
(** Succeeds if every part does. *)
Fixpoint all_some {A} (c : chain (option A)) : option (chain A) :=
  match c with
  | [] => Some []
  | (n, Some a) :: c' => match all_some c' with Some r => Some ((n, a) :: r) | None => None end
  | (_, None) :: _ => None
  end.
Definition gen_udp_file (fuel : nat) (lw : bool) (T O : network) (actions : list nat) : option udp_file :=
  match all_some (per_kind T O (gen_assume_kind T fuel)), all_some (per_kind T O (gen_action_kind T lw fuel actions)) with
  | Some asm, Some act =>
      Some (mkFile (max_nvbls O) (max_nchannels O) (length (pcs O)) (gen_process_of_channel O)
              (gen_variable_of_channel O) (gen_domsz T O) asm act)
  | _, _ => None
  end.

(** ** What the runtime of UdpModel.v is compiled with *)
(** Domain sizes up to the first 0, the loop of protocol.c:675-681. *)
Fixpoint until_zero (l : list nat) : list nat :=
  match l with [] => [] | d :: l' => if d =? 0 then [] else d :: until_zero l' end.
(** [split c] are the random numbers an execution of action_assign draws when the
    runtime model gives it the number [c]. *)
Definition iden_of (F : udp_file) (split : N -> nat -> nat) (pcidx : nat) : iden :=
  mkIden (f_nvariables F)
    (until_zero (map (exec_domsz (f_domsz F) pcidx) (seq 0 (f_nvariables F))))
    (exec_variable_of_channel (f_variable_of_channel F) (f_nvariables F) pcidx)
    (exec_assume (f_assume F) pcidx)
    (fun c => exec_action (f_action F) pcidx (split c)).
(** protocol.c:236-242: the channels are the numbers before the first one that leads
    to the process itself. *)
Fixpoint count_channels (fuel : nat) (F : udp_file) (pcidx k : nat) : nat :=
  match fuel with
  | 0 => k
  | S fuel' => if exec_process_of_channel (f_process_of_channel F) pcidx k =? pcidx then k
               else count_channels fuel' F pcidx (S k)
  end.
Definition n_channels (F : udp_file) (pcidx : nat) : nat := count_channels (f_nchannels F) F pcidx 0.
(** recv_Packet, protocol.c:643-664: a packet is given to the first channel that leads
    to the process it comes from.  (Hosts are told apart by the process they run.) *)
Fixpoint channel_from (fuel : nat) (F : udp_file) (pcidx from k : nat) : nat :=
  match fuel with
  | 0 => k
  | S fuel' => if exec_process_of_channel (f_process_of_channel F) pcidx k =? from then k
               else channel_from fuel' F pcidx from (S k)
  end.
(** Where a packet sent on channel [k] arrives. *)
Definition peer_of (F : udp_file) (pcidx k : nat) : nat * nat :=
  let o := exec_process_of_channel (f_process_of_channel F) pcidx k in
  (o, channel_from (n_channels F o) F o pcidx 0).
