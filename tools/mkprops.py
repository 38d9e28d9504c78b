#!/usr/bin/env python3
"""Writes /verif/properties.jsonl from the table below (one property per entry)."""
import json
P=[]
def p(id,title,statement,quantifier,why,anchors):
    P.append(dict(id=id,title=title,statement=statement,quantifier=quantifier,why_tests_cant=why,anchors=anchors))

p("C01","Action and step ids are a bijection",
  "For a domain of size M>0, encoding a local action (a,b,c) with all values below M as a single id and decoding it gives (a,b,c) back; every id below M^3 (M^2 for pairs) decodes to in-range values and re-encodes to itself.",
  "every domain size M>0, every triple/pair of values below M, every id below M^3 / M^2",
  "unbounded domain size; a test can only sample ids",
  ["src/uni/uniact.hh: id_of2, id_of3, UniAct::of_id, UniStep::of_id"])
p("C02","The three unidirectional-ring protocol representations agree",
  "Converting a protocol between its list of actions, its propagation function (table indexed by predecessor and own value, M = no action) and its action bit set describes the same set of actions: propagation function -> actions lists exactly the enabled (a,b,c); a deterministic action list -> propagation function -> actions gives the same set; propagation function -> bit set -> propagation function is the identity.",
  "every domain size, every propagation function, every deterministic action list or set",
  "ranges over all protocols of all domain sizes",
  ["src/uni/unifile.cc: uniring_ppgfun_of, uniring_actions_of, uniring_actset_of"])
p("C03","Domain size recovery",
  "The domain size computed from a propagation table is k exactly when the table has k^2 entries and 0 (the error value) when the length is not a square; likewise with cubes for an action bit set; for an action list it is one more than the largest value mentioned.",
  "every table / set length and action list",
  "unbounded lengths",
  ["src/uni/unifile.cc: uniring_domsz_of"])
p("C04","Base64 protocol ids round-trip",
  "Printing a propagation function as a base64 protocol id and reading the id back yields the same domain size and the same propagation function.",
  "every domain size from 1 to 255 (indeed every size, in the unbounded-integer model) and every propagation function over it",
  "all protocols of all domain sizes; the padding and length recovery depend on the size",
  ["src/uni/unifile.cc: oput_b64_ppgfun, xget_b64_ppgfun"])
p("C05","Base64 decoding is total, range-safe and rejects malformed ids",
  "For every token the decoder either reports failure (0) or returns a domain size M and a table of exactly M^2 entries all of which are <= M; it fails whenever a character is outside the 64-character alphabet or the length is not one that some M produces.",
  "every token (string)",
  "arbitrary input strings",
  ["src/uni/unifile.cc: xget_b64_ppgfun"])
p("C06","A reported livelock is real",
  "If the tile search for a periodic livelock answers Yes for a propagation function, then the returned row and column describe a genuine periodic block of local actions, and there is a ring size on which the protocol has an infinite execution (every state having an enabled process that acts).",
  "every propagation function, domain size and search limit",
  "the conclusion concerns infinite executions on rings of unbounded size",
  ["src/uni/livelock.cc: fill_livelock_ck, livelock_semick_rec, livelock_semick"])
p("C07","A Nil livelock verdict means livelock-free on every ring size",
  "If the tile search answers Nil for a protocol of self-disabling processes, then on a ring of any number of processes every execution terminates (no infinite execution exists).",
  "every self-disabling propagation function, domain size, search limit; every ring size and every schedule",
  "all ring sizes and all schedules; this is the reason the tool exists",
  ["src/uni/livelock.cc: livelock_semick_rec, livelock_semick"])
p("C08","Livelock verdicts are stable under a larger limit",
  "If the tile search answers Yes or Nil with limit k it gives the same answer with every limit k' >= k; only May can change.",
  "every propagation function, domain size and pair of limits",
  "unbounded limits",
  ["src/uni/livelock.cc: livelock_semick"])
p("C09","A guided livelock hit is real",
  "If the guided livelock check succeeds for a closed chain of tiles, the protocol has an infinite execution on some ring, and every action recorded in the returned set is an action of the protocol.",
  "every propagation function, chain of (west, north) pairs and limit",
  "infinite executions on rings of unbounded size",
  ["src/uni/livelock.cc: guided_livelock_semick_rec, guided_livelock_ck"])
p("C10","Action masks with wildcards are exact",
  "Subtracting a masked action (a coordinate equal to M is a wildcard) from an action set removes exactly the actions matching the mask; the overlap test is true exactly when some action of the set matches.",
  "every domain size, action set and mask",
  "all sets and masks",
  ["src/uni/livelock.cc: subtract_action_mask, action_mask_overlap_ck"])
p("C11","Cycle-through-node search is exact",
  "The depth-first cycle check from a node answers true exactly when the digraph has a non-empty path from the node back to itself, and then the returned stack is such a cycle (consecutive stack nodes are joined by arcs, and the last has an arc to the first).",
  "every finite digraph, every start node",
  "all graphs; termination of the loop is part of the claim",
  ["src/uni/livelock.cc: cycle_ck_from"])
p("C12","Tile continuation graph is exact, and acyclicity rules out livelock",
  "The tile continuation digraph has an arc between two nodes exactly when the action tiles described in the interface comment exist; if it has no cycle, a self-disabling protocol has no livelock on any ring size.",
  "every propagation function and domain size; every ring size",
  "all protocols, all ring sizes",
  ["src/uni/livelock.cc: make_tile_cont_digraph, make_overapprox_tile_cont_digraph"])
p("C13","Adjacency list refines a multigraph",
  "After counting arcs in a first pass, committing, and adding the same arcs in a second pass, each node's arc list is exactly the sequence of destinations added for it; deleting an arc removes all and only the arcs to that destination from that source and leaves all other nodes' arcs unchanged, and no write leaves the arc array.",
  "every number of nodes and every sequence of arc additions and deletions",
  "all histories; overlapping slices would only show for particular degree patterns",
  ["src/uni/adjlist.hh: AdjList::commit_degrees, add_arc, del_arc, degree, arc_from"])
p("C14","The canonical check never rejects a minimal protocol",
  "If a propagation function is lexicographically least among all its value-renamings, the canonical check accepts it; every renaming it compares against is a genuine renaming of the protocol's values.",
  "every domain size and propagation function",
  "all protocols and permutations",
  ["src/uni/canonical.cc: canonical_ck, permute_pc_act"])
p("C15","The canonical check accepts only minimal protocols",
  "If the canonical check accepts a propagation function then no renaming of values gives a lexicographically smaller one (so each renaming class is enumerated once).",
  "every domain size and propagation function",
  "all protocols and permutations",
  ["src/uni/canonical.cc: canonical_ck"])
p("C16","Synthesised unidirectional ring protocols always go silent",
  "For every set of legitimate (predecessor, own) value pairs, the actions produced by the unidirectional ring generator admit no infinite execution on a ring of any size.",
  "every legitimate-pair set, every domain size, every ring size, every schedule",
  "all ring sizes and schedules",
  ["src/uni/synthesize.cc: unidirectionalRingProtocolGenerator"])
p("C17","Synthesised unidirectional ring protocols do not disturb legitimate states",
  "In a ring state where every process's (predecessor, own) pair is legitimate, no synthesised action is enabled.",
  "every legitimate-pair set, domain size, ring size and legitimate ring state",
  "all ring sizes",
  ["src/uni/synthesize.cc: unidirectionalRingProtocolGenerator"])
p("C18","Synthesised unidirectional ring protocols converge",
  "When a value with a legitimate self pair exists, every ring state (of every size) in which no synthesised action is enabled has all (predecessor, own) pairs legitimate if and only if every value that legitimate pairs reach from the least such value, and from which they can be followed for ever, leads back to it. (The unconditional claim is false; a counterexample is proved.)",
  "every legitimate-pair set, domain size, ring size and silent ring state",
  "all ring sizes",
  ["src/uni/synthesize.cc: unidirectionalRingProtocolGenerator"])
p("C19","Conflict family: adding a conflict",
  "After adding conflict b, a test set is reported conflicting exactly when it was before or b is a subset of it; a set of actions is therefore rejected exactly when it contains some set ever added.",
  "every family, every added set, every test set, every history of additions",
  "all histories; deletions of subsumed sets and the early return must not lose information",
  ["src/conflictfamily.cc: ConflictFamily::add_conflict, conflict_ck, add_impossible"])
p("C20","Conflict family: stored sets form an antichain",
  "Starting from the empty family, after any sequence of additions no stored conflict set is a subset of another, and each stored set was added.",
  "every history of additions",
  "all histories",
  ["src/conflictfamily.cc: ConflictFamily::add_conflict, all_conflicts"])
p("C21","Conflict family: satisfiability flag",
  "After any sequence of additions, the satisfiability check is false exactly when the empty set was added, i.e. exactly when every set of actions is conflicting.",
  "every history of additions",
  "all histories",
  ["src/conflictfamily.cc: ConflictFamily::sat_ck"])
p("C22","Conflict family: flat encoding round-trips",
  "Encoding a family as a flat table (size, elements, size, elements, ...) and adding that table to an empty family rebuilds a family with the same stored sets; adding it to any family equals adding the sets one by one.",
  "every family, every list of sets",
  "all families",
  ["src/conflictfamily.cc: all_conflicts(Table<uint>&), add_conflicts(Table<uint>)"])
p("C23","Conflict family: exchanging newly found conflicts loses nothing",
  "If one family repeatedly flushes its new conflicts to a receiver that adds them, then after each exchange every set the sender reports conflicting is reported conflicting by the receiver.",
  "every interleaving of additions and flushes",
  "all histories",
  ["src/conflictfamily.cc: flush_new_conflicts, add_conflicts"])
p("C24","Conflict family: trimming and merging",
  "Trimming to a positive maximum size keeps exactly the stored sets of at most that size (0 keeps all) and never makes a non-conflicting set conflicting; merging families reports a conflict exactly when either did.",
  "every family and bound",
  "all families",
  ["src/conflictfamily.cc: trim, add_conflicts(const ConflictFamily&), operator-"])
p("C25","Conflict family: forward-checking members",
  "The member query fails exactly when the test set is already conflicting, and otherwise returns exactly the countable elements whose addition to the test set would make it conflicting.",
  "every family, test set and countable set",
  "all families",
  ["src/conflictfamily.cc: conflict_membs, superset_membs"])
p("C26","Conflict family: the impossible set",
  "After any sequence of additions every element recorded as impossible makes any set containing it conflicting, and every singleton conflict ever stored by an addition is recorded.",
  "every history of additions",
  "all histories",
  ["src/conflictfamily.cc: ConflictFamily::impossible_set, add_conflict, add_impossible"])
p("C27","Ring deadlock detector: reported deadlocks are real",
  "Whenever the ring deadlock checker announces a deadlock, there is a ring of silent local states containing an illegitimate one.",
  "every bidirectional-ring local protocol",
  "ring sizes are unbounded",
  ["src/deadfree.cc: deadlock_freedom_ck"])
p("C28","Ring deadlock detector: 'does not have deadlock' is trustworthy",
  "When the ring deadlock checker announces there is no deadlock, no ring of any size has a silent state in which some process's local state is illegitimate.",
  "every bidirectional-ring local protocol, every ring size",
  "ring sizes are unbounded",
  ["src/deadfree.cc: deadlock_freedom_ck"])
p("C29","Reachability fixpoints are exact",
  "Backward (forward) reachability returns exactly the states from which (to which) the given states can be reached by zero or more transitions; undirected reachability likewise for the symmetric relation; the transitive closure relates exactly the states joined by one or more transitions.",
  "every finite transition relation and state set",
  "all systems, paths of any length; loop termination is part of the claim",
  ["src/pfmla.cc: PFmla::pre_reach, PFmla::img_reach, UndirectedReachability"])
p("C30","closure_within is the greatest closed subset",
  "The closed subset computed within a set of states is contained in it, closed under transitions, and contains every closed subset.",
  "every finite transition relation and state set",
  "all systems",
  ["src/pfmla.cc: PFmla::closure_within"])
p("C31","Cycle check is exact on closed sets",
  "For a set of assumed states closed under transitions, the cycle check terminates, answers true exactly when some transition cycle lies within the assumed states, and the returned set contains every state on such a cycle and only states that lie on a path from a cycle to a cycle.",
  "every finite transition relation, every closed set of assumed states",
  "all systems",
  ["src/pfmla.cc: PFmla::cycle_ck"])
p("C32","Cycle check restricted to a predicate terminates when cycles stay inside",
  "The cycle check restricted to a state predicate terminates and answers correctly whenever every transition cycle reachable from the predicate lies in it. Without that proviso it can run forever, and can report a cycle although no cycle touches the predicate.",
  "every finite transition relation and state predicate",
  "non-termination appears only for particular non-closed predicates",
  ["src/pfmla.cc: PFmla::cycle_ck(scc, pf)", "src/stabilization.cc: shadow_ck"])
p("C33","Layer limits are honoured",
  "With a layer limit k>0 the cycle check either stops reporting more than k layers, or reports the number of image steps needed to reach the fixpoint (or to enter the invariant), and that number is at most k.",
  "every finite transition relation, closed set, invariant and limit",
  "all systems and limits",
  ["src/pfmla.cc: PFmla::cycle_ck", "src/stabilization.cc: stabilization_ck"])
p("C34","Weak convergence check is exact",
  "The weak convergence check answers true exactly when every assumed state has an execution inside the assumed states that reaches the invariant; the reported layer count is one more than the longest shortest such path.",
  "every finite transition relation, invariant and assumed set",
  "all systems",
  ["src/stabilization.cc: weak_convergence_ck"])
p("C35","A verified protocol is self-stabilising",
  "If the stabilization check of a non-probabilistic protocol accepts, then from every assumed state every maximal execution ends up for good in the returned legitimate states, within as many steps as there are states; the assumed states and the returned states are closed and there is no deadlock outside them. Without shadow variables and without a layer limit the check is exact: it accepts the protocols with these properties and no others. It always gives an answer.",
  "every finite system, every option set, every assumed start state, every infinite or maximal execution",
  "all schedules and all start states",
  ["src/stabilization.cc: stabilization_ck, shadow_ck, weak_convergence_ck", "src/pfmla.cc: cycle_ck, closure_within, pre_reach, img_reach"])
p("C36","A rejected protocol has a witness",
  "If the stabilization check rejects a protocol then the corresponding violation really exists: no legitimate state, a self-loop, a transition leaving the assumed states, a deadlock outside the invariant, an execution longer than the allowed number of layers that is still outside, a state that cannot reach the invariant, or (livelock) no closed set of legitimate states that all executions end up in; with a closed invariant the livelock is an infinite execution that leaves the invariant infinitely often.",
  "every finite system and option set",
  "all systems",
  ["src/stabilization.cc: stabilization_ck"])
p("C37","Constant formulas and context-bearing formulas behave alike",
  "Conjunction, disjunction, difference, complement, equivalence, subset and overlap on formulas give the same answers whether an operand is the built-in constant true/false or a context-bearing formula with the same meaning.",
  "every combination of operand representations and every formula",
  "the fast paths are chosen by representation, not by value",
  ["src/pfmla.c: and_PFmla, or_PFmla, nimp_PFmla, xnor_PFmla, not_PFmla, equiv_ck_PFmla, overlap_ck_PFmla, subseteq_ck_PFmla"])
p("C38","Pre-image and image of the constant-true relation",
  "The image of a state set under a relation is empty exactly when no state of the set has a transition, regardless of the representation of the relation.",
  "every state set and relation representation",
  "fast paths chosen by representation",
  ["src/pfmla.c: pre1_PFmla, img1_PFmla"])
p("C39","Action indexing is a bijection on local actions",
  "For every network, decoding a number below the number of actions gives an action of one kind of process with guard and assignment values within their domains, whose own number it is, and every such action has such a number. Two actions have the same guard number exactly when they belong to the same kind of process and test the same values; within a kind of process they have the same assignment number exactly when they assign the same values.",
  "every list of variable domains, every action index",
  "all process shapes",
  ["src/xnpc.cc: ActSymm, PcSymm::action_index, PcSymm::action", "src/xnsys.cc: Net::action_index, Net::action"])
p("C40","Symmetric actions share one representative",
  "The representative chosen for an action is the smallest action that can be obtained from it by renaming symmetric links, it represents itself, two actions have the same representative exactly when they are renamings of each other, and the list of actions kept under a representative is exactly its renamings (for process layouts a protocol file can declare).",
  "every process symmetry and action",
  "all link symmetries",
  ["src/xnsys.cc: representative_action_index", "src/xnpc.cc"])
p("C41","Ranking deadlocks by remaining candidates is exact",
  "After ranking, the deadlock states in rank i are exactly the deadlock states that exactly i candidate actions can resolve, the ranks are disjoint and cover all deadlocks, and the candidates listed for a rank are exactly those that resolve some state of it. Revising such a ranking after some candidates became actions and others were dropped gives the same ranks as ranking again, whenever every deadlock left can still be resolved.",
  "every deadlock set, candidate list, and sets of added and dropped candidates",
  "all systems",
  ["src/synthesis.cc: RankDeadlocksMRV, ReviseDeadlocksMRV"])
p("C42","Ranking of states by distance",
  "State layer i computed before ranking actions contains exactly the states whose shortest path to the legitimate states has length i, ranking succeeds exactly when every state has such a path, and each candidate action is put in the smallest layer from which it has a step to the layer before, or in the last one if it has none.",
  "every finite transition relation and legitimate set",
  "all systems",
  ["src/search.cc: rank_states, rank_actions"])
p("C43","Coexistence of actions guarantees deterministic self-disabling processes",
  "If every pair of distinct actions of a process is accepted by the coexistence test with forced disabling, then the process is deterministic and no action that changes something can be followed by another action of the same process without a neighbour acting; for actions that change something the test accepts exactly the pairs with this property, and the candidates left by the trimming after an action is picked coexist with every renaming of it.",
  "every process shape and set of actions (no random variables; the self-disabling part also no write-only ones)",
  "all process shapes",
  ["src/synthesis.cc: coexist_ck"])
p("C44","Search output has been verified",
  "Whenever the backtracking synthesiser reports success with verification on, the action list it returns passed the stabilization check for every system instance.",
  "every search history, heuristic choice and conflict database",
  "all search paths",
  ["src/search.cc: AddStabilization, verify_solutions"])
p("C45","UDP runtime: sanitised process state",
  "Before handling any event the runtime reduces every own and cached value into its domain, whatever garbage the memory contained, and in-range values are not changed.",
  "every memory content",
  "arbitrary corruption",
  ["src/udp-impl/protocol.c: fix_process_state"])
p("C46","UDP runtime: stale packets cannot change state",
  "A packet that does not carry the receiver's current sequence id never changes the receiver's variable values or its permission to act.",
  "every process state and every packet",
  "arbitrary packets and corrupted states",
  ["src/udp-impl/protocol.c: handle_recv"])
p("C47","UDP runtime: a process acts only with permission from all its readable neighbours",
  "While handling a packet the process executes an action only if it was or became enabled and every neighbour whose values it reads has acknowledged; the acting process is then disabled and takes fresh sequence ids on all channels.",
  "every process state and packet",
  "arbitrary states and packets",
  ["src/udp-impl/protocol.c: handle_recv, all_adj_acknowledged, CMD_disable"])
p("C48","UDP runtime: the enabled marker is never a reserved value",
  "After enabling, the priority is neither 0 (disabled) nor all ones (query marker), for every random draw; after a timeout or an accepted packet the process's marker is not all ones, and no event makes it so; a stale packet, however, leaves a corrupted marker in place.",
  "every random draw, state and packet",
  "all 2^32 draws and all states",
  ["src/udp-impl/protocol.c: CMD_enable, update_enabled, handle_recv, handle_timeout"])
p("C49","UDP runtime: packets survive the byte-order conversion",
  "Converting a packet to network byte order and back gives the same packet, on either host endianness.",
  "every packet",
  "all field values",
  ["src/udp-impl/protocol.c: hton_Packet, ntoh_Packet"])
p("C50","UDP runtime: the pseudo-random generator never degenerates",
  "The xorshift generator step is a bijection on 32-bit words that fixes only 0 at 0, so a generator seeded non-zero never reaches the all-zero state; it runs through all 2^32-1 non-zero words before repeating, and every process index except 60 gives a non-zero seed.",
  "every 32-bit seed and every number of draws",
  "2^32 states and unbounded draws",
  ["src/udp-impl/protocol.c: rand32_xorshift, hash32_wang"])
p("C51","Reported convergence steps are exact",
  "With step counting on, the first number reported by an accepted check is the least n such that every execution of n steps from the assumed states is in the invariant; the second is the least m such that every assumed state has an execution of at most m steps into the returned states.",
  "every finite non-probabilistic system",
  "worst case over all executions",
  ["src/stabilization.cc: stabilization_ck, weak_convergence_ck", "src/pfmla.cc: cycle_ck"])
p("C52","Randomised protocols",
  "If the stabilization check accepts a probabilistic protocol then whatever the scheduler does, from every assumed state chance leads into the returned (closed) legitimate states within as many steps as there are states with positive probability; if it reports a livelock, some scheduler can prevent every closed set of legitimate states from being reached, for ever. Without shadow variables the check is exact.",
  "every finite system of processes, every scheduler strategy",
  "all schedulers and all random outcomes",
  ["src/xfmlae.cc: probabilistic_livelock_ck", "src/stabilization.cc: stabilization_ck"])
p("C53","Refinement of a shadow specification",
  "If the check accepts a protocol specified through shadow variables, there is a closed set of legitimate states that all executions end up in, in which every transition is invisible or one of the shadow protocol (as the style demands), in which every legitimate shadow state and every shadow transition is represented, and from which the protocol stops making visible progress only where the shadow protocol offers none.",
  "every finite system, every style and scope, every execution",
  "all executions and all shadow protocols",
  ["src/stabilization.cc: shadow_ck", "doc/webtex/legit.tex"])
p("C54","Documented invariant styles hold in all returned states",
  "Inside the invariant returned by an accepted check, every transition obeys the documented style: with future & shadow the shadow variables change only as the shadow protocol says, with future & silent no action executes.",
  "every accepted finite system",
  "all systems",
  ["src/stabilization.cc: shadow_ck", "doc/webtex/legit.tex"])
p("C55","The block search is complete up to its limit",
  "The search reports a livelock if and only if the protocol has a periodic livelock block of some width and height, both at most the limit; so an inconclusive answer means that every livelock block exceeds the limit in one direction. A self-disabling protocol livelocks on some ring if and only if it has a periodic block, so every livelock is found if the limit is large enough.",
  "every protocol, every limit and every block",
  "unbounded numbers of blocks",
  ["src/uni/livelock.cc: livelock_semick"])
p("C56","Comparing and assigning variables",
  "Comparing a variable with a constant or another variable holds exactly in the states where the values are equal; assigning a constant or a variable holds exactly on the transitions whose new value is the assigned value reduced modulo the number of values of the target.",
  "every system of variables, every constant and pair of variables (also with different domains), every transition",
  "all domain sizes",
  ["src/pfmla.c: eqc_PFmlaVbl, eq_PFmlaVbl, img_eqc_PFmlaVbl, img_eq_PFmlaVbl, img_eq_img_PFmlaVbl"])
p("C57","Picking a state from a formula",
  "Asking a satisfiable formula for a state gives values that do satisfy it, the lexicographically least ones; picking gives the set of exactly that one state; writing values as a formula denotes exactly the states with these values.",
  "every formula over every system of variables",
  "all formulas",
  ["src/pfmla.c: pick_pre_PFmla, state_of_PFmla", "src/pfmla.cc: of_state, of_img_state"])
p("C58","Relational operations mean what their names say",
  "Pre-image, image, composition, inverse, product, quantification and renaming of variables denote the corresponding operations on sets and relations of states.",
  "every formula over every system of variables",
  "all formulas and variable lists",
  ["src/pfmla.c: pre_PFmla, img_PFmla, dotjoin_PFmla, inverse_PFmla, as_img_PFmla, smooth_vbls_PFmla, subst_vbls_PFmla", "src/pfmla.hh: cross"])
p("C59","One transition formula per process is as good as one for the system",
  "Pre-images and images computed process by process are those of the union of the processes' transitions, where variables a process does not write keep their values; making a process self-disabling removes exactly the transitions starting where one of its transitions can end.",
  "every list of processes and every state set",
  "all systems",
  ["src/xfmlae.hh: Fmlae::pre, Fmlae::img, Fmlae::xfmla", "src/xnsys.cc: identity_xn, action_xfmlae", "src/xfmlae.hh: self_disable"])
p("C60","UDP runtime: actions see values the neighbours really had",
  "In every execution of the network - packets lost, duplicated and reordered at will, timers firing at any time - a process that acts sees, for each neighbour it reads, a combination of values that neighbour had at one moment since the process started waiting with its current sequence id.",
  "every network of generated processes, every schedule of timeouts, deliveries, losses and duplications of any length, and every random draw, as long as a new sequence id does not collide with a packet still under way",
  "unbounded asynchronous schedules",
  ["src/udp-impl/protocol.c: handle_recv, handle_timeout, CMD_seq"])
p("C61","UDP runtime: executions are interleavings of atomic actions",
  "Every execution of the UDP runtime from a coherent start reaches only variable values that some interleaving of atomic actions of the protocol reaches. (Refuted: even with reliable in-order delivery two neighbours may act on each other's old values.)",
  "every schedule of a network of processes",
  "unbounded asynchronous schedules",
  ["src/udp-impl/protocol.c: handle_recv, handle_timeout", "src/udp-impl/act.h: DoThreeColorRing"])
p("C62","The search misses no solution",
  "For one or two system instances: when the revision of the first partial protocol or the backtracking search (without limits on depth and height) reports that there is no solution, no set of candidate actions that includes the given ones, avoids the recorded conflicts and pairwise coexists makes every instance stabilise. The instances are plain (no shadow variables, no randomisation, interleaving), their candidates have no self-loop and respect the assumption, and the given actions already do what is specified in legitimate states. (Refuted for three instances, and for specified transitions that need new actions.)",
  "every one or two instances of any size, every set of candidates, conflict database, order of picks and limit on learned conflicts",
  "all search trees",
  ["src/search.cc: AddStabilization, stabilization_search_init", "src/synthesis.cc: revise_actions, revise_actions_alone, check_forward, add_small_conflict_set"])
p("C63","Actions blamed for a livelock cause it",
  "The actions recorded as a conflict after a livelock belong to the protocol, and every protocol that contains all of them has a cycle inside the livelock from which an illegitimate state of it is reached; finding them always ends without a failed check.",
  "every finite system, set of actions and livelock",
  "all systems and cycles",
  ["src/xnsys.cc: find_livelock_actions, find_one_cycle"])
p("C64","Transitions of an action",
  "For every action and process, the computed transition formula contains exactly the moves of the action by that process: guarded on what the process reads, assigning what it writes, leaving every other variable alone, and within what the process is permitted. The formulas kept for an action and its symmetric variants contain only such moves, every move that does not start where another one of the same process ends, and never two moves of one process in a row; whether formulas are stored or computed on demand makes no difference if no two moves follow each other. (Refuted: the two ways agree always; the on-demand formula of the whole action is the union of those of its processes.)",
  "every network of processes, every action number and every pair of states",
  "all topologies, layouts and symmetric links",
  ["src/xnsys.cc: action_xfmlae, action_pfmla, represented_xns_of_pc, make_action_pfmla, commit_initialization", "src/xnpc.cc: XnPc"])
p("C65","Candidate actions",
  "Without variables that belong to the specification only, an action (one representative per class of symmetric variants) becomes a candidate exactly if it can be executed, its moves are not all forbidden and are all permitted, it does not always leave everything as it is, it never leaves the assumption, starts somewhere in it, and - if the invariant is to be kept literally - keeps legitimate states legitimate and does there only what is specified or leaves the shared variables alone; the actions put on the other two lists are characterised as exactly. With such variables a candidate still meets these conditions. Every action is on at most one list, once, in order, and the answer says whether there is anything to do. (Refuted: a candidate has no forbidden move.)",
  "every network, invariant, assumption and specified protocol, stored or on-demand formulas",
  "all systems",
  ["src/xnsys.cc: candidate_actions"])
p("C66","Actions of the given protocol",
  "When every process sees what it accesses and assigns nothing at random: the actions read off the protocol a process is given are exactly those that describe one of its transitions, and reading them ends. The actions of the system are the representatives of those of the first process of each kind that accesses no variable twice (or of all of the kind). If the given protocol treats all processes of a kind alike, no transition that changes something is lost; if it also treats interchangeable links alike, no transition is added. (Refuted: none is added in general.)",
  "every network, every given protocol and every pair of states",
  "all topologies and protocols",
  ["src/xnpc.cc: XnPc::actions, PcSymm::actions", "src/xnsys.cc: Net::commit_initialization", "src/prot-xfile.cc: ReadProtocolFile"])
p("C67","Integer expressions",
  "An expression built from variables, literals, negation and the operators (sum, difference, product, quotient, remainder, power, minimum, maximum) has, in every state, the value its operators give; it is refused exactly when an operator has no meaning in some state. A comparison of two expressions holds in exactly the states where it holds of their values, and an assignment allows exactly the steps after which the left side has the value the right side had before.",
  "every system of variables, every expression, every pair of states",
  "all expressions over all domains",
  ["src/pfmla.cc: intmap_init_op, intmap_coerce_lookup, IntPFmla::negate, defeq_binop, cmp, img_eq", "src/pfmla.hh: IntPFmla"])
p("C68","Expressions of a protocol file",
  "When no name is declared twice and no quantifier reuses the name of an index in scope: every expression that is accepted (predicates, invariants, assumptions, guards, values) has a meaning in every state, and what is built from it is that meaning, with all operators, comparisons, quantifiers, conditionals, arrays whose indices go round, constants, lets and named predicates; evaluation leaves the indices in scope as they were. An expression all of whose parts have a value in every state, whose indices mention no variables and whose variables the process reads is accepted. What a process evaluates depends only on the variables it reads if the named predicates do. (Refuted: reusing the name of an index; guarding a division with &&; a let with the name of a constant; access through a named predicate.)",
  "every set of declarations, every expression, every state",
  "all expressions over all declarations",
  ["src/prot-xfile.cc: ProtoconFile::eval (both), eval_int, eval_gtz, eval_vbl, lookup_vbl, lookup_pfmla, lookup_int, within_process"])
p("C69","Actions of a protocol file",
  "An accepted action (guard --> assignments) of a process has exactly the steps it describes: its guard is true before; afterwards the assigned variables have the values that the expressions had before, modulo their domain sizes, and the written variables it does not mention keep theirs (when it is added, or says '_;') or have any value (when it is permitted or forbidden, or says '_ := _'); it constrains no other variable. Variables read at random may be redrawn under the guard. With -=> it loses the steps that, as the process sees them, lie on or between cycles, in particular all self-loops, and nothing else if it disables itself; an action that assigns a variable the process cannot read loses its self-loops. An action whose parts all have values and that assigns only variables of its process is accepted. Adding an action adds exactly these steps to each process and, with all else unchanged, to the system; permitting and forbidding mark exactly them. (Refuted: an assignment after '_ := _' ; one variable written through two accesses; -=> removes self-loops only; -=> removes only steps on cycles.)",
  "every network, process, set of declarations, action, role and pair of states",
  "all actions over all declarations and states",
  ["src/prot-xfile.cc: ProtoconFile::parse_action (both), add_action, forbid_action, permit_action","src/pfmla.cc: cycle_ck","src/prot-xfile.leg: Action","doc/webtex/permit.tex"])
p("C70","Synchronous steps",
  "The transition relation of a synchronous system has exactly the steps in which every process that can execute one of the given actions does so (fully synchronous) or in which any of the processes do (semi-synchronous), all from the same state and at once, where the others keep their variables, variables nobody writes keep their value and some variable that does not change by itself changes. It is refused exactly if one variable can be written through two accesses. Every fully synchronous step is a semi-synchronous one, and so is every change by one process alone. Without variables that change by themselves, the system is at rest exactly where the asynchronous one is.",
  "every network, set of given actions and pair of states",
  "all networks, protocols and states",
  ["src/xnsys.cc: Net::sync_xn, Net::semisync_xn","src/stabilization.cc: stabilization_ck","src/opt.cc: -synchronous, -semisynchronous"])
p("C71","The text written of expressions and actions",
  "An expression or an action of a protocol file, as it is written to the output file, is read again as the very same expression or action, unless an equality of predicates written '==' is an operand of a tighter operator. The text kept of several assumption statements holds exactly where all of them hold, and so does the text of several invariant statements if no statement after the first has an operator weaker than '&&' at its top. Every expression, of whatever structure, has a text that is read with its meaning. (Refuted: an equality of predicates beside '&&'; a second invariant with '||'.)",
  "every text, every expression and action read from it, every list of statements",
  "all expressions of all sizes",
  ["src/prot-xfile.leg: ActionExpr, Expr and below, ConstExpr and below","src/prot-xfile.cc: string_expression, parend_string_expression, parse_action, add_pc_assume, add_pc_legit, add_assume, add_legit","src/prot-ofile.cc"])
p("C72","Declared accesses",
  "Each process of a kind accesses exactly the variables that its read:/write:/... declarations name, in their order, where in a 'symmetric' block every reference stands for one variable per tuple of values. The kind of process has the declared types of access and the declared symmetric blocks. The declarations written to the output file are read again as the same declarations. The text by which an action in the output file refers to an accessed variable is read as that variable, if the values in its block are put in place of a whole index or need no parentheses. (Refuted: a block whose values mention the name they define does not end; 'x[2*j]' with j := i-1 becomes 'x[2*i-1]'.)",
  "every list of declarations, every number of processes and values of their indices, every state",
  "all declarations, all processes, all texts",
  ["src/prot-xfile.cc: add_access, add_symmetric_links, add_symmetric_access, string_expression","src/prot-xfile.leg: VblAccessType, SymmetricLinks","src/xnsys.cc: Net::add_access","src/prot-ofile.cc: oput_protocon_pc_vbls","src/xnpc.hh: vbl_name"])
p("C73","The solution in the output file",
  "The actions written to the output file, without minimisation, are read again and accepted, and give every process exactly the steps of the actions of the solution (tested values before, assigned values after), if the names of the accesses are read back (C72), the process sees some variable and those that change by themselves. For kinds of processes that see what they write, reading all of them adds these steps and no others. For processes that see everything they access, the actions found in the system read back are those of the solution that a process can take; all of them if each kind has a process with different variables and nothing is assumed. (Refuted: the text of an action of a process that sees nothing is not read.)",
  "every network, solution, process and pair of states",
  "all networks, all sets of actions",
  ["src/prot-ofile.cc: oput_protocon_pc_act, oput_protocon_pc_acts, oput_protocon_file","src/xnpc.cc: puppet_self_loop_ck","src/xnpc.hh: vbl_name, X::Pc act ordering","src/prot-xfile.leg: puppet actions"])
p("C74","The checks selected by -uniring",
  "The cycle check selected by -uniring ends for all processes and closed assumptions, and what it reports exists: the states it returns are no deadlocks and can be reached from a cycle in the assumed set. In a unidirectional ring whose processes are listed in the direction in which values travel and cannot act twice in a row it misses nothing: it reports a cycle if and only if there is one, its result lies in a closed invariant if and only if all cycles do, and together with the deadlock test it succeeds if and only if the ring converges. The number of layers counts rounds of turns. (Refuted: it misses cycles if the ring is listed the other way round or if processes can act twice in a row, and stops the program if processes have a choice. The reachability check selected by -uniring only looks for deadlocks when processes cannot act twice in a row, and otherwise can reject rings that can always reach the invariant, or never end.)",
  "every system of processes, ring, closed assumption and invariant, limit of layers, state",
  "all rings of all sizes and all cycles in them",
  ["src/xfmlae.cc: uniring_cycle_ck, uniring_weak_convergence_ck","src/stabilization.cc: stabilization_ck","src/synthesis.cc: check_forward","src/opt.cc: -uniring"])
p("C75","The generator prints exactly the undecided protocols it ranges over",
  "For three or more values the search of generate ends without a failed claim. What it prints are different protocols, each deterministic, self-disabling, without the two-action livelocks, undecided by the livelock check at the period limit, with every action on a cycle of continuations, and accepted as smallest renaming. If the guided check is off, every such protocol within the depth limit is printed. Given actions restrict this to the protocols that start with them. A run limited by -bfs together with the runs that continue from the tables it leaves print the same as one unlimited run. (Refuted: one or two values fail a claim; with the guided check a protocol that passes the checks can be missing; two printed protocols can be renamings of each other.)",
  "every number of values, limits, -nw-disabling, -trustme, given actions, every protocol",
  "the number of protocols grows beyond enumeration with the number of values",
  ["src/uni/generate.cc: searchit, recurse, periodic_leads_semick, trim_coexist, commit_domsz","src/uni/unifile.cc: map_livelock_ppgs","src/uni/canonical.cc: canonical_ck"])
p("C76","The generator misses no hard livelock",
  "If a protocol the generator ranges over has a livelock on some ring, of any size, but no periodic livelock block within the period limit, then the unlimited run without the guided check prints a protocol that is, up to the names of the values, part of it. So a run that prints nothing shows that the limit decides livelocks for all self-disabling protocols with this number of values and all ring sizes: 3 for three values, 9 for four.",
  "every number of values, limit, protocol and ring size",
  "all rings of all sizes for all protocols",
  ["src/uni/generate.cc: searchit","src/uni/livelock.cc: livelock_semick"])
p("C77","The tables of the generated UDP code fit together",
  "For every network the generated process_of_channel, variable_of_channel and domsz_of_variable are consistent: channels of a process are numbered from 0 without gaps, lead to different other processes and have exactly one channel back; sender and receiver of a channel agree on which variable each position of a packet holds; every process that has a variable gets it from its owner, which is a writer if there is one; domain sizes are those of the variables. If every variable has one writer and no process has one twice, the generated code meets the requirements of the runtime properties, so a process acts on values its neighbours really had.",
  "every network and every protocol for it, and every network the code is printed for",
  "networks of any shape and number of processes; the tests use a few rings",
  ["src/udp-ofile.cc: oput_udp_include_file","src/udp-impl/protocol.c: channel_idx_ck, recv_Packet"])
p("C78","The generated UDP code does the protocol's actions and repairs assumptions",
  "action_assign turns the values a process sees into exactly those results its actions allow (a visible change if there is one, nothing otherwise), also when the code was made from a process of a smaller network; assume_assign makes the assumption true, changes nothing if it is true, and changes only variables the process may write; generation ends and fails exactly if no single assignment repairs the assumption.",
  "every network, set of actions, process and valuation",
  "all protocols, all values and random numbers",
  ["src/udp-ofile.cc: oput_udp_include_file"])
p("C79","The search by several threads",
  "For every number of threads, interleaving, interrupt and limit: whatever a thread counts as a solution keeps the given actions, adds usable candidates only and passed the check of every instance; the result is the last one counted, and without -try-all at most one is counted; solutions go to different files; after an interrupt nothing is counted any more. For one or two instances without limits on depth: if all threads leave without an interrupt and there is no result, there is no solution; with -try-all every solution contains a counted one; a solution rejected by the conflicts that are written contains a counted one. If solutions are recorded as conflicts, no counted one contains an earlier one. (Refuted: with a limit on the size of conflicts below that of a solution the same solution is counted again and again.)",
  "every number of threads, schedule of their steps, interrupt point, choice of candidates, option, set of instances, conflict family",
  "interleavings of any length of any number of threads",
  ["src/search.cc: stabilization_search, stabilization_search_init, set_done_flag"])
p("C80","Minimising conflicts",
  "The minimised conflicts reject everything the given ones reject and no solution, in whatever order they are minimised and however they are distributed among threads. The orders by size contain every conflict once.",
  "every conflict family, one or two instances, order and distribution among threads",
  "all conflict families and all solutions",
  ["src/search.cc: initialize_conflicts, stabilization_search (MinimizeConflictsTask)","src/synthesis.cc: add_small_conflict_set"])
p("C81","Agreement of MPI processes on the result, and the verdict on several files",
  "If every solution found has at least one layer, exactly one process of an MPI run writes a result, the first of those whose solution has the fewest layers, and no solution is reported exactly if no process found one; never do two write. (Refuted: one solution without layers -- every one of the rank/shuffle search and of the verification -- makes the run report that there is none. The verdict on several files is that some file stabilises.)",
  "every number of processes and what each found; every list of files",
  "any number of processes",
  ["src/main-mpi.cc: stabilization_search","src/search.cc: multi_verify_stabilization","src/main.cc: main"])
p("C82","Options of the interactive simulator, and reading them back",
  "In every state, show-img (show-pre) prints exactly one line for each other state of the current restriction that one transition leads to (comes from), all different; giving a line to assign leads to that state and, in any other state, changes the same variables only; assignments are done from left to right with values taken modulo the domain; and no text whatsoever takes a variable out of its domain. (Refuted: what show-state prints cannot be read back.)",
  "every transition relation, restriction, state and typed line",
  "any protocol, state and text",
  ["src/interactive.cc: Interactive::img_options, pre_options, assign, parse_variable"])
p("C83","Sessions of the interactive simulator",
  "After every sequence of commands, each command answers what it should in the states that the predicate commands so far restrict the simulator to: step follows a path of offered states and prints its lines, stopping early only where nothing is offered; show-sat prints whether the state satisfies each predicate in use; no predicate is used before it is computed; and a random step can take every option. (Refuted: with an assumption that is not closed the cycle predicate may never be computed; the first state may lie outside of the assumption.)",
  "every protocol, sequence of commands and random choices",
  "any number of commands in any order",
  ["src/interactive.cc: interactive, Interactive::reset_mask_pfmla, state_pfmla"])
p("C84","Random states and synchronous steps of the interactive simulator",
  "randomize leads to a state of the restriction whenever there is one, can lead to each of them and otherwise leaves the state; sstep gives every variable that an offered state changes a value that one of them gives it, leaves the others, and does exactly all changes when no two offered states change the same variable. (Refuted: sstep may leave the restriction.)",
  "every protocol, restriction, state and random choices",
  "any shuffle and any random numbers",
  ["src/interactive.cc: Interactive::randomize_state, interactive"])
p("C85","The classifier of ring protocols",
  "For every protocol and pair of periods classification ends and its answer is exact: the least width between the two periods of a repeating block of local actions; silent only if no strip of the maximum number of columns repeats; unknown otherwise. So silent means livelock-free on rings of every size (self-disabling protocols), livelock means livelocks on arbitrarily large rings, a definite answer never changes when the maximum is raised, every livelock is classified once the maximum is large enough, and the two methods never contradict each other. (Refuted: -nobdd honours the minimum period.)",
  "every propagation table, domain size, minimum and maximum period, ring size",
  "rings of any size and protocols of any domain",
  ["src/uni/classify.cc: bdd_classify, tile_classify, column_xfmla, main"])
p("C86","Ring protocols made from Wang tiles",
  "For every set of Wang tiles: the actions made by either reduction lie in the reported domain, are self-disabling and N-disabling (and commutative for -commute), and pass the final check exactly if the tiles are NW-deterministic; the actions tile a quadrant, or tile periodically, exactly if the Wang tiles do; hence the written protocol has a livelock on some ring exactly if the tiles tile periodically. The protocol stored in unifile.cc is the reduction of the stored tiles. (Refuted for tiles that use the colour UINT_MAX.)",
  "every finite set of Wang tiles, every ring size",
  "infinite tilings and rings of any size",
  ["src/uni/aperiodic.cc: ReduceToActionTiles, ReduceToCommutativeTiles, LookupSymId, check_constraints","src/uni/unifile.cc: tilings_and_patterns_aperiodic_uniring"])
p("C87","Text forms of a ring protocol",
  "The protocol file that the ring tools write for a list of actions, read by the main tool with any number of processes, gives process i its own variable and that of its predecessor and makes exactly the steps of the protocol; so it can run forever exactly if the protocol has a livelock on a ring of that size. A written list of actions is read back with the smallest domain that has all its values. The translator gives, from a list or an id, an id, a list and a protocol file of one and the same protocol, and translating its results again gives the same results; a domain that is too small is refused. (Refuted: lists with two actions for the same values; -domsz 256.)",
  "every list of actions, every table, every domain size up to 255, every ring size, every pair of states",
  "rings of any size and protocols of any domain",
  ["src/uni/xlate.cc: main","src/uni/unifile.cc: xget_triple, xget_list, oput_list, oput_protocon"])
p("C88","Promela model of a solution",
  "The model written for the SPIN model checker starts in every state of the target system, never reads or writes outside its arrays or the domains of the variables, and goes from one state to another exactly if a process of the target system takes a step of the solution there, provided that what the process sees is compatible with the assumption of the processes of its kind. This is so for protocols without shadow variables, whose index expressions mean the same in C, where every kind of process has actions. (Refuted: index expressions with %; a kind of processes without actions before one with actions; shadow variables.)",
  "every synthesis network, every target network of the same protocol, every list of actions, every pair of states",
  "systems of any size and all their steps",
  ["src/promela.cc: OPutPromelaModel, OPutPromelaPc, OPutPromelaAction, OPutPromelaVblRef, OPutPromelaSelect","src/xnsys.cc: Net::unroll_action"])
p("C89","Choice of the next action",
  "Whenever a candidate is left, the search tries a candidate of some instance, whatever the options, the random numbers and the recorded conflicts are; unless everything is random, it is enabled in an unresolved state with the fewest choices of all instances, and by default in an instance with the fewest candidates for such states. For a single instance, each way of picking prefers what it promises: -pick-reach a new path to the invariant, niceness the nicest process, greedy the greatest sum of choices resolved, lcv the fewest candidates left over, conflict the members of recorded conflicts, quick the actions that enter the states with a path to the invariant; without -random it is the least action for mrv and lex, with -random any of them can be drawn, and of actions that differ in randomised guards only the first is taken. So what C44 and C62 say of a search holds of the real one.",
  "every level of every search, every option, every sequence of random numbers, every set of conflicts",
  "searches of any length over any instances",
  ["src/synthesis.cc: PickActionMRV, pick_action_candidates","src/opt.cc: -pick, -pick-reach"])
p("C90","Meaning of a protocol file",
  "A protocol file that is read means what its statements say: the states it assumes are those where every assumption is true, inside a process definition for every process of the kind; the same for the legitimate states; every process has the assumption, the invariant, the actions, the permitted and the forbidden steps that its statements give for its index, and the steps of the system and of the specification are theirs together. An expression means what it means where it stands, with the predicates before it. A file whose expressions have values and whose invariants are of one kind is read, and no file with two kinds is.",
  "every file: all declarations, all lists of statements inside and outside of process definitions, any number of kinds and processes, all states and steps",
  "unboundedly many files, systems and states",
  ["src/prot-xfile.cc: add_pc_predicate, add_pc_assume, add_pc_legit, add_predicate, add_assume, add_legit, assign_legit_mode","src/prot-xfile.leg: Predicate, Assumption, Legit, PcDef"])
p("C91","The ring synthesis program, from file to file",
  "Given a protocol file of a unidirectional ring without actions whose processes all find the same pairs (left value, own value) legitimate, the program finds exactly these pairs, each once, and the legitimate states of the file are those with such pairs everywhere. The protocol file that it writes, read again with any number of processes, never runs for ever, does not leave a state with such pairs everywhere, and ends only in such states if every value that the root leads to and that can go on for ever leads back. A file is accepted if and only if nobody can act, there are at least two processes, no invariant outside the processes says more, and the first process reads one variable and writes another one.",
  "every file, every ring size of the input and of the output, every domain up to 255, every set of pairs",
  "unboundedly many files, ring sizes and states",
  ["src/uni/synthesize.cc: main, ReadUniRing","src/uni/unifile.cc: oput_protocon"])
p("C92","The declarations of a protocol file",
  "A constant has the value given on the command line, or else the value of its first declaration. An array of variables has the declared size, domain and role; each member of each array is one variable of the system, there are no others, and the variables of an array are in order. A kind has as many processes as it says; process number i has the declared index, the declared lets at that index, and accesses the declared variables in the declared ways. Negative numbers of processes and empty arrays or domains are refused. So the meaning of the statements (C90) holds of every file that is read, from its text.",
  "every file, every constant given on the command line, every size",
  "unboundedly many files, sizes and states",
  ["src/prot-xfile.cc: add_variables, add_processes, add_constant, add_constant_list, add_let, eval_int, eval_nat, eval_gtz","src/xnsys.cc: Net::add_variables, commit_variable, commit_variables, add_processes","src/prot-xfile.leg: ProtoconFile, ConstDecl, VarDecl, ProcDecl"])
p("C93","The conflicts listed in a protocol file",
  "An action in a list of conflicts is accepted exactly when all its steps, in the first process of the kind whose variables are different, test and assign the same values; these are what is noted, and they are an action of the kind with a number of its own if the process only reads and writes variables of the protocol. Lists of conflicts change neither the system nor the processes nor the conflicts the search starts with.",
  "every file, every list of actions, every kind of process, every set of conflicts the search starts with",
  "unboundedly many files, actions and states",
  ["src/prot-xfile.cc: ProtoconFile::conflict_action, push_conflict_action","src/prot-xfile.leg: ConflictActionDef","src/synthesis.cc: SynthesisCtx::add","src/xnpc.cc: PcSymm::init_representative"])
p("C94","The instances a command line asks for",
  "Every -param makes exactly one instance for each combination of the values of its constants (a range counts from one end to the other, a value in parentheses is one list), with the options given before it and in it, the last value of a name being the one that counts; without -param the whole line does so. The file of an instance sees the chosen numbers whatever it declares itself, the system's own file sees the values given before -x, and the constants written for an instance stand for the same numbers when used without an index.",
  "every command line, every combination of values, every file read with them",
  "unboundedly many command lines, values and combinations",
  ["src/opt.cc: handle_param_arg, parse_NatMap, push_instances, parse_param, protocon_options","src/xnspec.hh: NatMap","src/prot-xfile.leg: ReadProtoconFile","src/prot-ofile.cc: oput_protocon_constants"])
p("C95","Action numbers mean the same in all instances",
  "Two readings of one protocol file with different constants have the same kinds of processes, accesses, access types, roles and symmetric links, so they can differ in domains only; a system and its instances are accepted together exactly when all can be read and no access has another domain in an instance, and then every action number is the same action (kind, guard values, assigned values, representative) in the system and in every instance the command line asks for.",
  "every protocol file, every command line, every choice of constants, every action number",
  "unboundedly many files, constants and instances",
  ["src/xnpc.cc: PcSymm::dom_equiv_ck","src/search.cc: stabilization_search_init","src/prot-xfile.cc: add_variables, add_access","src/opt.cc: push_instances"])
p("C96","A solution written by way of espresso is the same solution",
  "The table of bits written for the actions of a kind of processes stands for exactly the actions of the solution, if the processes see all that they access and do not write at random; whatever equivalent table comes back, if all of its lines can be written as actions, then these can be read, and in every state they allow exactly the assignments of the actions of the solution.",
  "every network, every solution, every equivalent table, every state",
  "unboundedly many networks, solutions and tables; the outside program may answer any equivalent one",
  ["src/pla.cc: oput_pla_val, oput_pla_act, oput_pla_pc_acts, oput_pla_file, oput_protocon_pc_act, oput_protocon_pc_acts_espresso_spawn"])
p("C97","A system that passes the first check makes sense",
  "The check made on a system before synthesis or verification accepts it if and only if only variables of the implementation are read at random and, whatever values these variables have, the other variables can be chosen such that the state is legitimate; the check stops at an internal claim exactly when a variable of the specification with more than one value is read at random; small instances are not checked.",
  "every system: all networks, roles, kinds of access and invariants",
  "unboundedly many networks and invariants; a test sees only the verdict for one system",
  ["src/xnsys.cc: Sys::integrityCk, Net::commit_initialization","src/xnsys.hh: smooth_shadow_vbls, proj_shadow","src/opt.cc: init_sysdef"])
p("C98","The style of an invariant has one meaning wherever it is written",
  "A protocol file gives an invariant a style exactly when the text at that place is one of the documented ways to write this style, with any white space and comments between the words; no text stands for two styles; a style that a file can have is written to the output such that it is read as the same style, whatever follows; the command line option ignores blanks and nothing else, and gives a style that may also be written in a file the same meaning.",
  "every text, every style, every argument of the option",
  "unboundedly many texts, with white space and comments; the grammar tries alternatives in order, so that an earlier one may hide a later one",
  ["src/prot-xfile.leg: LegitMode, LegitStmt, WS","src/prot-ofile.cc: string_of_invariant_style","src/opt.cc: eqck_skipws, parse_style"])
p("C99","The picture of a network shows who depends on whom",
  "In the graph that is written for a network there is one node for each process, and an arrow from one process to another if and only if the first may write a variable that the second mentions; between two processes there is at most one line, with two heads if each may write what the other mentions.",
  "every network",
  "unboundedly many networks; a test sees one picture",
  ["src/graphviz.cc: oput_graphviz_file"])
p("C100","A suggested protocol that is accepted is a solution",
  "When protocols are suggested for testing (-test with -x-try), each accepted suggestion contains the given actions and stabilises every instance; of a suggestion to take a part of (-x-try-subset), the returned part consists of given actions and usable candidates of the suggestion and stabilises every instance. The test says yes if and only if there is a suggestion and every suggestion was tested and accepted, for every number of threads and every order of their steps. A search that starts from a suggestion returns a solution that contains it.",
  "every set of instances, given actions, suggestions and order of their actions, family of conflicts, limits, choice of actions, number of threads and schedule",
  "unboundedly many instances, suggestions and interleavings of threads",
  ["src/search.cc: stabilization_search (TestTask, solution_guesses)","src/synthesis.cc: PartialSynthesis::pick_actions, pick_actions_separately","src/synthesis.hh: candidate_ck, delegate_ck","src/opt.cc: -x-try, -x-try-subset"])
p("C101","Local invariants of bidirectional rings: which views occur and which ring sizes are possible",
  "For a set of local views (predecessor's value, own value, successor's value), cutting the set keeps exactly the views that occur in a legitimate state of some ring and changes the legitimate states of no ring. With a least ring size given, the check of satisfiability says yes exactly if every ring of at least that size has a legitimate state; without one, exactly if all large enough rings have one; cutting first does not change the answer. The check whether local propagation can work says yes exactly if the process of every view outside of the set can take a value whose view is in the set, or whose view would still occur nowhere if it were added. Each check ends.",
  "every number of values, every set of views, every least size and every ring size",
  "the claims are about rings of unboundedly many processes",
  ["src/biring.cc: biring_legit_enum_idx, biring_fixpoint, true_biring_sat_ck, biring_sat_ck, local_propagation_syn"])
p("C102","The enumeration of local invariants of bidirectional rings prints each class once and misses none",
  "Two sets of views get the same canonical form exactly if they differ only in the names of the values, and the canonical form is the largest of them. The search for a known set says yes exactly if some renaming of values puts all its views into the given set. The enumeration ends; no two printed sets differ only in the names of the values; every view of a printed set occurs in a legitimate state of some ring, the ring sizes asked for are possible, and unless trivial ones are wanted no view has three equal values. Every set with these qualities is printed under some names of the values; with the option of pairs, exactly those given by pairs of neighbouring values.",
  "every number of values, every set of views, every strict total order of tables, every least size and setting of the options",
  "the number of sets is exponential in the cube of the number of values, and the sizes of rings are unbounded",
  ["src/biring.cc: permute_pc_config, canonical_set, subgraph_isomorphism_ck, recurse, searchit"])
p("C103","The filter of local invariants of bidirectional rings answers as documented and prints the invariant it was given",
  "The test for the documented pattern says yes exactly if there are four values as described, and a set with the pattern has legitimate states for all rings of two or more processes. The tests for known sets are exact when there are enough values. The smaller sets that are printed are proper parts of the given set, no two the same up to names, with all views occurring and the sizes asked for possible, and every proper part with these sizes is inside of one of them. The printed invariant holds for a view exactly if the view is in the set (with the option of pairs: if some view with the same first two values is), and the action of the specification with one more value is enabled exactly where no old value would do.",
  "every number of values, every set of views, every strict total order of tables, every least size, every ring size",
  "the number of sets is exponential in the cube of the number of values, and the sizes of rings are unbounded",
  ["src/biring.cc: subck_match, subck_2match, subck_3match, subck_next7, echo_subsets, oput_biring_invariant, oput_biring_protocon_spec"])
p("C104","The pictures of local invariants of bidirectional rings show exactly the legitimate states",
  "The picture has an arrow from the pair of the first two values of a view to the pair of its last two exactly if the view is in the set and some view of the set can follow; each arrow is printed once and both its ends are nodes of the picture. The legitimate states of a ring are exactly the closed walks of its size in the picture. With the option of pairs there is one arrow for each pair of first two values, and for a set given by pairs the closed walks are again exactly the legitimate states.",
  "every number of values, every set of views, every ring size and state",
  "the sets and the sizes of rings are unbounded",
  ["src/biring.cc: oput_graphviz"])
if __name__=="__main__":
    with open("/verif/properties.jsonl","w") as f:
        for x in P: f.write(json.dumps(x)+"\n")
    print(len(P))
