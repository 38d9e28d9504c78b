{"id": "C01", "title": "Action and step ids are a bijection", "statement": "For a domain of size M>0, encoding a local action (a,b,c) with all values below M as a single id and decoding it gives (a,b,c) back; every id below M^3 (M^2 for pairs) decodes to in-range values and re-encodes to itself.", "quantifier": "every domain size M>0, every triple/pair of values below M, every id below M^3 / M^2", "why_tests_cant": "unbounded domain size; a test can only sample ids", "anchors": ["src/uni/uniact.hh: id_of2, id_of3, UniAct::of_id, UniStep::of_id"]}
{"id": "C02", "title": "The three unidirectional-ring protocol representations agree", "statement": "Converting a protocol between its list of actions, its propagation function (table indexed by predecessor and own value, M = no action) and its action bit set describes the same set of actions: propagation function -> actions lists exactly the enabled (a,b,c); a deterministic action list -> propagation function -> actions gives the same set; propagation function -> bit set -> propagation function is the identity.", "quantifier": "every domain size, every propagation function, every deterministic action list or set", "why_tests_cant": "ranges over all protocols of all domain sizes", "anchors": ["src/uni/unifile.cc: uniring_ppgfun_of, uniring_actions_of, uniring_actset_of"]}
{"id": "C03", "title": "Domain size recovery", "statement": "The domain size computed from a propagation table is k exactly when the table has k^2 entries and 0 (the error value) when the length is not a square; likewise with cubes for an action bit set; for an action list it is one more than the largest value mentioned.", "quantifier": "every table / set length and action list", "why_tests_cant": "unbounded lengths", "anchors": ["src/uni/unifile.cc: uniring_domsz_of"]}
{"id": "C04", "title": "Base64 protocol ids round-trip", "statement": "Printing a propagation function as a base64 protocol id and reading the id back yields the same domain size and the same propagation function.", "quantifier": "every domain size from 1 to 255 (indeed every size, in the unbounded-integer model) and every propagation function over it", "why_tests_cant": "all protocols of all domain sizes; the padding and length recovery depend on the size", "anchors": ["src/uni/unifile.cc: oput_b64_ppgfun, xget_b64_ppgfun"]}
{"id": "C05", "title": "Base64 decoding is total, range-safe and rejects malformed ids", "statement": "For every token the decoder either reports failure (0) or returns a domain size M and a table of exactly M^2 entries all of which are <= M; it fails whenever a character is outside the 64-character alphabet or the length is not one that some M produces.", "quantifier": "every token (string)", "why_tests_cant": "arbitrary input strings", "anchors": ["src/uni/unifile.cc: xget_b64_ppgfun"]}
{"id": "C06", "title": "A reported livelock is real", "statement": "If the tile search for a periodic livelock answers Yes for a propagation function, then the returned row and column describe a genuine periodic block of local actions, and there is a ring size on which the protocol has an infinite execution (every state having an enabled process that acts).", "quantifier": "every propagation function, domain size and search limit", "why_tests_cant": "the conclusion concerns infinite executions on rings of unbounded size", "anchors": ["src/uni/livelock.cc: fill_livelock_ck, livelock_semick_rec, livelock_semick"]}
{"id": "C07", "title": "A Nil livelock verdict means livelock-free on every ring size", "statement": "If the tile search answers Nil for a protocol of self-disabling processes, then on a ring of any number of processes every execution terminates (no infinite execution exists).", "quantifier": "every self-disabling propagation function, domain size, search limit; every ring size and every schedule", "why_tests_cant": "all ring sizes and all schedules; this is the reason the tool exists", "anchors": ["src/uni/livelock.cc: livelock_semick_rec, livelock_semick"]}
{"id": "C08", "title": "Livelock verdicts are stable under a larger limit", "statement": "If the tile search answers Yes or Nil with limit k it gives the same answer with every limit k' >= k; only May can change.", "quantifier": "every propagation function, domain size and pair of limits", "why_tests_cant": "unbounded limits", "anchors": ["src/uni/livelock.cc: livelock_semick"]}
{"id": "C09", "title": "A guided livelock hit is real", "statement": "If the guided livelock check succeeds for a closed chain of tiles, the protocol has an infinite execution on some ring, and every action recorded in the returned set is an action of the protocol.", "quantifier": "every propagation function, chain of (west, north) pairs and limit", "why_tests_cant": "infinite executions on rings of unbounded size", "anchors": ["src/uni/livelock.cc: guided_livelock_semick_rec, guided_livelock_ck"]}
{"id": "C10", "title": "Action masks with wildcards are exact", "statement": "Subtracting a masked action (a coordinate equal to M is a wildcard) from an action set removes exactly the actions matching the mask; the overlap test is true exactly when some action of the set matches.", "quantifier": "every domain size, action set and mask", "why_tests_cant": "all sets and masks", "anchors": ["src/uni/livelock.cc: subtract_action_mask, action_mask_overlap_ck"]}
{"id": "C11", "title": "Cycle-through-node search is exact", "statement": "The depth-first cycle check from a node answers true exactly when the digraph has a non-empty path from the node back to itself, and then the returned stack is such a cycle (consecutive stack nodes are joined by arcs, and the last has an arc to the first).", "quantifier": "every finite digraph, every start node", "why_tests_cant": "all graphs; termination of the loop is part of the claim", "anchors": ["src/uni/livelock.cc: cycle_ck_from"]}
{"id": "C12", "title": "Tile continuation graph is exact, and acyclicity rules out livelock", "statement": "The tile continuation digraph has an arc between two nodes exactly when the action tiles described in the interface comment exist; if it has no cycle, a self-disabling protocol has no livelock on any ring size.", "quantifier": "every propagation function and domain size; every ring size", "why_tests_cant": "all protocols, all ring sizes", "anchors": ["src/uni/livelock.cc: make_tile_cont_digraph, make_overapprox_tile_cont_digraph"]}
{"id": "C13", "title": "Adjacency list refines a multigraph", "statement": "After counting arcs in a first pass, committing, and adding the same arcs in a second pass, each node's arc list is exactly the sequence of destinations added for it; deleting an arc removes all and only the arcs to that destination from that source and leaves all other nodes' arcs unchanged, and no write leaves the arc array.", "quantifier": "every number of nodes and every sequence of arc additions and deletions", "why_tests_cant": "all histories; overlapping slices would only show for particular degree patterns", "anchors": ["src/uni/adjlist.hh: AdjList::commit_degrees, add_arc, del_arc, degree, arc_from"]}
{"id": "C14", "title": "The canonical check never rejects a minimal protocol", "statement": "If a propagation function is lexicographically least among all its value-renamings, the canonical check accepts it; every renaming it compares against is a genuine renaming of the protocol's values.", "quantifier": "every domain size and propagation function", "why_tests_cant": "all protocols and permutations", "anchors": ["src/uni/canonical.cc: canonical_ck, permute_pc_act"]}
{"id": "C15", "title": "The canonical check accepts only minimal protocols", "statement": "If the canonical check accepts a propagation function then no renaming of values gives a lexicographically smaller one (so each renaming class is enumerated once).", "quantifier": "every domain size and propagation function", "why_tests_cant": "all protocols and permutations", "anchors": ["src/uni/canonical.cc: canonical_ck"]}
{"id": "C16", "title": "Synthesised unidirectional ring protocols always go silent", "statement": "For every set of legitimate (predecessor, own) value pairs, the actions produced by the unidirectional ring generator admit no infinite execution on a ring of any size.", "quantifier": "every legitimate-pair set, every domain size, every ring size, every schedule", "why_tests_cant": "all ring sizes and schedules", "anchors": ["src/uni/synthesize.cc: unidirectionalRingProtocolGenerator"]}
{"id": "C17", "title": "Synthesised unidirectional ring protocols do not disturb legitimate states", "statement": "In a ring state where every process's (predecessor, own) pair is legitimate, no synthesised action is enabled.", "quantifier": "every legitimate-pair set, domain size, ring size and legitimate ring state", "why_tests_cant": "all ring sizes", "anchors": ["src/uni/synthesize.cc: unidirectionalRingProtocolGenerator"]}
{"id": "C18", "title": "Synthesised unidirectional ring protocols converge", "statement": "When a value with a legitimate self pair exists, every ring state (of every size) in which no synthesised action is enabled has all (predecessor, own) pairs legitimate if and only if every value that legitimate pairs reach from the least such value, and from which they can be followed for ever, leads back to it. (The unconditional claim is false; a counterexample is proved.)", "quantifier": "every legitimate-pair set, domain size, ring size and silent ring state", "why_tests_cant": "all ring sizes", "anchors": ["src/uni/synthesize.cc: unidirectionalRingProtocolGenerator"]}
{"id": "C19", "title": "Conflict family: adding a conflict", "statement": "After adding conflict b, a test set is reported conflicting exactly when it was before or b is a subset of it; a set of actions is therefore rejected exactly when it contains some set ever added.", "quantifier": "every family, every added set, every test set, every history of additions", "why_tests_cant": "all histories; deletions of subsumed sets and the early return must not lose information", "anchors": ["src/conflictfamily.cc: ConflictFamily::add_conflict, conflict_ck, add_impossible"]}
{"id": "C20", "title": "Conflict family: stored sets form an antichain", "statement": "Starting from the empty family, after any sequence of additions no stored conflict set is a subset of another, and each stored set was added.", "quantifier": "every history of additions", "why_tests_cant": "all histories", "anchors": ["src/conflictfamily.cc: ConflictFamily::add_conflict, all_conflicts"]}
{"id": "C21", "title": "Conflict family: satisfiability flag", "statement": "After any sequence of additions, the satisfiability check is false exactly when the empty set was added, i.e. exactly when every set of actions is conflicting.", "quantifier": "every history of additions", "why_tests_cant": "all histories", "anchors": ["src/conflictfamily.cc: ConflictFamily::sat_ck"]}
{"id": "C22", "title": "Conflict family: flat encoding round-trips", "statement": "Encoding a family as a flat table (size, elements, size, elements, ...) and adding that table to an empty family rebuilds a family with the same stored sets; adding it to any family equals adding the sets one by one.", "quantifier": "every family, every list of sets", "why_tests_cant": "all families", "anchors": ["src/conflictfamily.cc: all_conflicts(Table<uint>&), add_conflicts(Table<uint>)"]}
{"id": "C23", "title": "Conflict family: exchanging newly found conflicts loses nothing", "statement": "If one family repeatedly flushes its new conflicts to a receiver that adds them, then after each exchange every set the sender reports conflicting is reported conflicting by the receiver.", "quantifier": "every interleaving of additions and flushes", "why_tests_cant": "all histories", "anchors": ["src/conflictfamily.cc: flush_new_conflicts, add_conflicts"]}
{"id": "C24", "title": "Conflict family: trimming and merging", "statement": "Trimming to a positive maximum size keeps exactly the stored sets of at most that size (0 keeps all) and never makes a non-conflicting set conflicting; merging families reports a conflict exactly when either did.", "quantifier": "every family and bound", "why_tests_cant": "all families", "anchors": ["src/conflictfamily.cc: trim, add_conflicts(const ConflictFamily&), operator-"]}
{"id": "C25", "title": "Conflict family: forward-checking members", "statement": "The member query fails exactly when the test set is already conflicting, and otherwise returns exactly the countable elements whose addition to the test set would make it conflicting.", "quantifier": "every family, test set and countable set", "why_tests_cant": "all families", "anchors": ["src/conflictfamily.cc: conflict_membs, superset_membs"]}
{"id": "C26", "title": "Conflict family: the impossible set", "statement": "After any sequence of additions every element recorded as impossible makes any set containing it conflicting, and every singleton conflict ever stored by an addition is recorded.", "quantifier": "every history of additions", "why_tests_cant": "all histories", "anchors": ["src/conflictfamily.cc: ConflictFamily::impossible_set, add_conflict, add_impossible"]}
{"id": "C27", "title": "Ring deadlock detector: reported deadlocks are real", "statement": "Whenever the ring deadlock checker announces a deadlock, there is a ring of silent local states containing an illegitimate one.", "quantifier": "every bidirectional-ring local protocol", "why_tests_cant": "ring sizes are unbounded", "anchors": ["src/deadfree.cc: deadlock_freedom_ck"]}
{"id": "C28", "title": "Ring deadlock detector: 'does not have deadlock' is trustworthy", "statement": "When the ring deadlock checker announces there is no deadlock, no ring of any size has a silent state in which some process's local state is illegitimate.", "quantifier": "every bidirectional-ring local protocol, every ring size", "why_tests_cant": "ring sizes are unbounded", "anchors": ["src/deadfree.cc: deadlock_freedom_ck"]}
{"id": "C29", "title": "Reachability fixpoints are exact", "statement": "Backward (forward) reachability returns exactly the states from which (to which) the given states can be reached by zero or more transitions; undirected reachability likewise for the symmetric relation; the transitive closure relates exactly the states joined by one or more transitions.", "quantifier": "every finite transition relation and state set", "why_tests_cant": "all systems, paths of any length; loop termination is part of the claim", "anchors": ["src/pfmla.cc: PFmla::pre_reach, PFmla::img_reach, UndirectedReachability"]}
{"id": "C30", "title": "closure_within is the greatest closed subset", "statement": "The closed subset computed within a set of states is contained in it, closed under transitions, and contains every closed subset.", "quantifier": "every finite transition relation and state set", "why_tests_cant": "all systems", "anchors": ["src/pfmla.cc: PFmla::closure_within"]}
{"id": "C31", "title": "Cycle check is exact on closed sets", "statement": "For a set of assumed states closed under transitions, the cycle check terminates, answers true exactly when some transition cycle lies within the assumed states, and the returned set contains every state on such a cycle and only states that lie on a path from a cycle to a cycle.", "quantifier": "every finite transition relation, every closed set of assumed states", "why_tests_cant": "all systems", "anchors": ["src/pfmla.cc: PFmla::cycle_ck"]}
{"id": "C32", "title": "Cycle check restricted to a predicate terminates when cycles stay inside", "statement": "The cycle check restricted to a state predicate terminates and answers correctly whenever every transition cycle reachable from the predicate lies in it. Without that proviso it can run forever, and can report a cycle although no cycle touches the predicate.", "quantifier": "every finite transition relation and state predicate", "why_tests_cant": "non-termination appears only for particular non-closed predicates", "anchors": ["src/pfmla.cc: PFmla::cycle_ck(scc, pf)", "src/stabilization.cc: shadow_ck"]}
{"id": "C33", "title": "Layer limits are honoured", "statement": "With a layer limit k>0 the cycle check either stops reporting more than k layers, or reports the number of image steps needed to reach the fixpoint (or to enter the invariant), and that number is at most k.", "quantifier": "every finite transition relation, closed set, invariant and limit", "why_tests_cant": "all systems and limits", "anchors": ["src/pfmla.cc: PFmla::cycle_ck", "src/stabilization.cc: stabilization_ck"]}
{"id": "C34", "title": "Weak convergence check is exact", "statement": "The weak convergence check answers true exactly when every assumed state has an execution inside the assumed states that reaches the invariant; the reported layer count is one more than the longest shortest such path.", "quantifier": "every finite transition relation, invariant and assumed set", "why_tests_cant": "all systems", "anchors": ["src/stabilization.cc: weak_convergence_ck"]}
{"id": "C35", "title": "A verified protocol is self-stabilising", "statement": "If the stabilization check of a non-probabilistic protocol accepts, then from every assumed state every maximal execution ends up for good in the returned legitimate states, within as many steps as there are states; the assumed states and the returned states are closed and there is no deadlock outside them. Without shadow variables and without a layer limit the check is exact: it accepts the protocols with these properties and no others. It always gives an answer.", "quantifier": "every finite system, every option set, every assumed start state, every infinite or maximal execution", "why_tests_cant": "all schedules and all start states", "anchors": ["src/stabilization.cc: stabilization_ck, shadow_ck, weak_convergence_ck", "src/pfmla.cc: cycle_ck, closure_within, pre_reach, img_reach"]}
{"id": "C36", "title": "A rejected protocol has a witness", "statement": "If the stabilization check rejects a protocol then the corresponding violation really exists: no legitimate state, a self-loop, a transition leaving the assumed states, a deadlock outside the invariant, an execution longer than the allowed number of layers that is still outside, a state that cannot reach the invariant, or (livelock) no closed set of legitimate states that all executions end up in; with a closed invariant the livelock is an infinite execution that leaves the invariant infinitely often.", "quantifier": "every finite system and option set", "why_tests_cant": "all systems", "anchors": ["src/stabilization.cc: stabilization_ck"]}
{"id": "C37", "title": "Constant formulas and context-bearing formulas behave alike", "statement": "Conjunction, disjunction, difference, complement, equivalence, subset and overlap on formulas give the same answers whether an operand is the built-in constant true/false or a context-bearing formula with the same meaning.", "quantifier": "every combination of operand representations and every formula", "why_tests_cant": "the fast paths are chosen by representation, not by value", "anchors": ["src/pfmla.c: and_PFmla, or_PFmla, nimp_PFmla, xnor_PFmla, not_PFmla, equiv_ck_PFmla, overlap_ck_PFmla, subseteq_ck_PFmla"]}
{"id": "C38", "title": "Pre-image and image of the constant-true relation", "statement": "The image of a state set under a relation is empty exactly when no state of the set has a transition, regardless of the representation of the relation.", "quantifier": "every state set and relation representation", "why_tests_cant": "fast paths chosen by representation", "anchors": ["src/pfmla.c: pre1_PFmla, img1_PFmla"]}
{"id": "C39", "title": "Action indexing is a bijection on local actions", "statement": "For every network, decoding a number below the number of actions gives an action of one kind of process with guard and assignment values within their domains, whose own number it is, and every such action has such a number. Two actions have the same guard number exactly when they belong to the same kind of process and test the same values; within a kind of process they have the same assignment number exactly when they assign the same values.", "quantifier": "every list of variable domains, every action index", "why_tests_cant": "all process shapes", "anchors": ["src/xnpc.cc: ActSymm, PcSymm::action_index, PcSymm::action", "src/xnsys.cc: Net::action_index, Net::action"]}
{"id": "C40", "title": "Symmetric actions share one representative", "statement": "The representative chosen for an action is the smallest action that can be obtained from it by renaming symmetric links, it represents itself, two actions have the same representative exactly when they are renamings of each other, and the list of actions kept under a representative is exactly its renamings (for process layouts a protocol file can declare).", "quantifier": "every process symmetry and action", "why_tests_cant": "all link symmetries", "anchors": ["src/xnsys.cc: representative_action_index", "src/xnpc.cc"]}
{"id": "C41", "title": "Ranking deadlocks by remaining candidates is exact", "statement": "After ranking, the deadlock states in rank i are exactly the deadlock states that exactly i candidate actions can resolve, the ranks are disjoint and cover all deadlocks, and the candidates listed for a rank are exactly those that resolve some state of it. Revising such a ranking after some candidates became actions and others were dropped gives the same ranks as ranking again, whenever every deadlock left can still be resolved.", "quantifier": "every deadlock set, candidate list, and sets of added and dropped candidates", "why_tests_cant": "all systems", "anchors": ["src/synthesis.cc: RankDeadlocksMRV, ReviseDeadlocksMRV"]}
{"id": "C42", "title": "Ranking of states by distance", "statement": "State layer i computed before ranking actions contains exactly the states whose shortest path to the legitimate states has length i, ranking succeeds exactly when every state has such a path, and each candidate action is put in the smallest layer from which it has a step to the layer before, or in the last one if it has none.", "quantifier": "every finite transition relation and legitimate set", "why_tests_cant": "all systems", "anchors": ["src/search.cc: rank_states, rank_actions"]}
{"id": "C43", "title": "Coexistence of actions guarantees deterministic self-disabling processes", "statement": "If every pair of distinct actions of a process is accepted by the coexistence test with forced disabling, then the process is deterministic and no action that changes something can be followed by another action of the same process without a neighbour acting; for actions that change something the test accepts exactly the pairs with this property, and the candidates left by the trimming after an action is picked coexist with every renaming of it.", "quantifier": "every process shape and set of actions (no random variables; the self-disabling part also no write-only ones)", "why_tests_cant": "all process shapes", "anchors": ["src/synthesis.cc: coexist_ck"]}
{"id": "C44", "title": "Search output has been verified", "statement": "Whenever the backtracking synthesiser reports success with verification on, the action list it returns passed the stabilization check for every system instance.", "quantifier": "every search history, heuristic choice and conflict database", "why_tests_cant": "all search paths", "anchors": ["src/search.cc: AddStabilization, verify_solutions"]}
{"id": "C45", "title": "UDP runtime: sanitised process state", "statement": "Before handling any event the runtime reduces every own and cached value into its domain, whatever garbage the memory contained, and in-range values are not changed.", "quantifier": "every memory content", "why_tests_cant": "arbitrary corruption", "anchors": ["src/udp-impl/protocol.c: fix_process_state"]}
{"id": "C46", "title": "UDP runtime: stale packets cannot change state", "statement": "A packet that does not carry the receiver's current sequence id never changes the receiver's variable values or its permission to act.", "quantifier": "every process state and every packet", "why_tests_cant": "arbitrary packets and corrupted states", "anchors": ["src/udp-impl/protocol.c: handle_recv"]}
{"id": "C47", "title": "UDP runtime: a process acts only with permission from all its readable neighbours", "statement": "While handling a packet the process executes an action only if it was or became enabled and every neighbour whose values it reads has acknowledged; the acting process is then disabled and takes fresh sequence ids on all channels.", "quantifier": "every process state and packet", "why_tests_cant": "arbitrary states and packets", "anchors": ["src/udp-impl/protocol.c: handle_recv, all_adj_acknowledged, CMD_disable"]}
{"id": "C48", "title": "UDP runtime: the enabled marker is never a reserved value", "statement": "After enabling, the priority is neither 0 (disabled) nor all ones (query marker), for every random draw; after a timeout or an accepted packet the process's marker is not all ones, and no event makes it so; a stale packet, however, leaves a corrupted marker in place.", "quantifier": "every random draw, state and packet", "why_tests_cant": "all 2^32 draws and all states", "anchors": ["src/udp-impl/protocol.c: CMD_enable, update_enabled, handle_recv, handle_timeout"]}
{"id": "C49", "title": "UDP runtime: packets survive the byte-order conversion", "statement": "Converting a packet to network byte order and back gives the same packet, on either host endianness.", "quantifier": "every packet", "why_tests_cant": "all field values", "anchors": ["src/udp-impl/protocol.c: hton_Packet, ntoh_Packet"]}
{"id": "C50", "title": "UDP runtime: the pseudo-random generator never degenerates", "statement": "The xorshift generator step is a bijection on 32-bit words that fixes only 0 at 0, so a generator seeded non-zero never reaches the all-zero state; it runs through all 2^32-1 non-zero words before repeating, and every process index except 60 gives a non-zero seed.", "quantifier": "every 32-bit seed and every number of draws", "why_tests_cant": "2^32 states and unbounded draws", "anchors": ["src/udp-impl/protocol.c: rand32_xorshift, hash32_wang"]}
{"id": "C51", "title": "Reported convergence steps are exact", "statement": "With step counting on, the first number reported by an accepted check is the least n such that every execution of n steps from the assumed states is in the invariant; the second is the least m such that every assumed state has an execution of at most m steps into the returned states.", "quantifier": "every finite non-probabilistic system", "why_tests_cant": "worst case over all executions", "anchors": ["src/stabilization.cc: stabilization_ck, weak_convergence_ck", "src/pfmla.cc: cycle_ck"]}
{"id": "C52", "title": "Randomised protocols", "statement": "If the stabilization check accepts a probabilistic protocol then whatever the scheduler does, from every assumed state chance leads into the returned (closed) legitimate states within as many steps as there are states with positive probability; if it reports a livelock, some scheduler can prevent every closed set of legitimate states from being reached, for ever. Without shadow variables the check is exact.", "quantifier": "every finite system of processes, every scheduler strategy", "why_tests_cant": "all schedulers and all random outcomes", "anchors": ["src/xfmlae.cc: probabilistic_livelock_ck", "src/stabilization.cc: stabilization_ck"]}
{"id": "C53", "title": "Refinement of a shadow specification", "statement": "If the check accepts a protocol specified through shadow variables, there is a closed set of legitimate states that all executions end up in, in which every transition is invisible or one of the shadow protocol (as the style demands), in which every legitimate shadow state and every shadow transition is represented, and from which the protocol stops making visible progress only where the shadow protocol offers none.", "quantifier": "every finite system, every style and scope, every execution", "why_tests_cant": "all executions and all shadow protocols", "anchors": ["src/stabilization.cc: shadow_ck", "doc/webtex/legit.tex"]}
{"id": "C54", "title": "Documented invariant styles hold in all returned states", "statement": "Inside the invariant returned by an accepted check, every transition obeys the documented style: with future & shadow the shadow variables change only as the shadow protocol says, with future & silent no action executes.", "quantifier": "every accepted finite system", "why_tests_cant": "all systems", "anchors": ["src/stabilization.cc: shadow_ck", "doc/webtex/legit.tex"]}
{"id": "C55", "title": "The block search is complete up to its limit", "statement": "The search reports a livelock if and only if the protocol has a periodic livelock block of some width and height, both at most the limit; so an inconclusive answer means that every livelock block exceeds the limit in one direction. A self-disabling protocol livelocks on some ring if and only if it has a periodic block, so every livelock is found if the limit is large enough.", "quantifier": "every protocol, every limit and every block", "why_tests_cant": "unbounded numbers of blocks", "anchors": ["src/uni/livelock.cc: livelock_semick"]}
{"id": "C56", "title": "Comparing and assigning variables", "statement": "Comparing a variable with a constant or another variable holds exactly in the states where the values are equal; assigning a constant or a variable holds exactly on the transitions whose new value is the assigned value reduced modulo the number of values of the target.", "quantifier": "every system of variables, every constant and pair of variables (also with different domains), every transition", "why_tests_cant": "all domain sizes", "anchors": ["src/pfmla.c: eqc_PFmlaVbl, eq_PFmlaVbl, img_eqc_PFmlaVbl, img_eq_PFmlaVbl, img_eq_img_PFmlaVbl"]}
{"id": "C57", "title": "Picking a state from a formula", "statement": "Asking a satisfiable formula for a state gives values that do satisfy it, the lexicographically least ones; picking gives the set of exactly that one state; writing values as a formula denotes exactly the states with these values.", "quantifier": "every formula over every system of variables", "why_tests_cant": "all formulas", "anchors": ["src/pfmla.c: pick_pre_PFmla, state_of_PFmla", "src/pfmla.cc: of_state, of_img_state"]}
{"id": "C58", "title": "Relational operations mean what their names say", "statement": "Pre-image, image, composition, inverse, product, quantification and renaming of variables denote the corresponding operations on sets and relations of states.", "quantifier": "every formula over every system of variables", "why_tests_cant": "all formulas and variable lists", "anchors": ["src/pfmla.c: pre_PFmla, img_PFmla, dotjoin_PFmla, inverse_PFmla, as_img_PFmla, smooth_vbls_PFmla, subst_vbls_PFmla", "src/pfmla.hh: cross"]}
{"id": "C59", "title": "One transition formula per process is as good as one for the system", "statement": "Pre-images and images computed process by process are those of the union of the processes' transitions, where variables a process does not write keep their values; making a process self-disabling removes exactly the transitions starting where one of its transitions can end.", "quantifier": "every list of processes and every state set", "why_tests_cant": "all systems", "anchors": ["src/xfmlae.hh: Fmlae::pre, Fmlae::img, Fmlae::xfmla", "src/xnsys.cc: identity_xn, action_xfmlae", "src/xfmlae.hh: self_disable"]}
{"id": "C60", "title": "UDP runtime: actions see values the neighbours really had", "statement": "In every execution of the network - packets lost, duplicated and reordered at will, timers firing at any time - a process that acts sees, for each neighbour it reads, a combination of values that neighbour had at one moment since the process started waiting with its current sequence id.", "quantifier": "every network of generated processes, every schedule of timeouts, deliveries, losses and duplications of any length, and every random draw, as long as a new sequence id does not collide with a packet still under way", "why_tests_cant": "unbounded asynchronous schedules", "anchors": ["src/udp-impl/protocol.c: handle_recv, handle_timeout, CMD_seq"]}
{"id": "C61", "title": "UDP runtime: executions are interleavings of atomic actions", "statement": "Every execution of the UDP runtime from a coherent start reaches only variable values that some interleaving of atomic actions of the protocol reaches. (Refuted: even with reliable in-order delivery two neighbours may act on each other's old values.)", "quantifier": "every schedule of a network of processes", "why_tests_cant": "unbounded asynchronous schedules", "anchors": ["src/udp-impl/protocol.c: handle_recv, handle_timeout", "src/udp-impl/act.h: DoThreeColorRing"]}
{"id": "C62", "title": "The search misses no solution", "statement": "For one or two system instances: when the revision of the first partial protocol or the backtracking search (without limits on depth and height) reports that there is no solution, no set of candidate actions that includes the given ones, avoids the recorded conflicts and pairwise coexists makes every instance stabilise. The instances are plain (no shadow variables, no randomisation, interleaving), their candidates have no self-loop and respect the assumption, and the given actions already do what is specified in legitimate states. (Refuted for three instances, and for specified transitions that need new actions.)", "quantifier": "every one or two instances of any size, every set of candidates, conflict database, order of picks and limit on learned conflicts", "why_tests_cant": "all search trees", "anchors": ["src/search.cc: AddStabilization, stabilization_search_init", "src/synthesis.cc: revise_actions, revise_actions_alone, check_forward, add_small_conflict_set"]}
{"id": "C63", "title": "Actions blamed for a livelock cause it", "statement": "The actions recorded as a conflict after a livelock belong to the protocol, and every protocol that contains all of them has a cycle inside the livelock from which an illegitimate state of it is reached; finding them always ends without a failed check.", "quantifier": "every finite system, set of actions and livelock", "why_tests_cant": "all systems and cycles", "anchors": ["src/xnsys.cc: find_livelock_actions, find_one_cycle"]}
{"id": "C64", "title": "Transitions of an action", "statement": "For every action and process, the computed transition formula contains exactly the moves of the action by that process: guarded on what the process reads, assigning what it writes, leaving every other variable alone, and within what the process is permitted. The formulas kept for an action and its symmetric variants contain only such moves, every move that does not start where another one of the same process ends, and never two moves of one process in a row; whether formulas are stored or computed on demand makes no difference if no two moves follow each other. (Refuted: the two ways agree always; the on-demand formula of the whole action is the union of those of its processes.)", "quantifier": "every network of processes, every action number and every pair of states", "why_tests_cant": "all topologies, layouts and symmetric links", "anchors": ["src/xnsys.cc: action_xfmlae, action_pfmla, represented_xns_of_pc, make_action_pfmla, commit_initialization", "src/xnpc.cc: XnPc"]}
{"id": "C65", "title": "Candidate actions", "statement": "Without variables that belong to the specification only, an action (one representative per class of symmetric variants) becomes a candidate exactly if it can be executed, its moves are not all forbidden and are all permitted, it does not always leave everything as it is, it never leaves the assumption, starts somewhere in it, and - if the invariant is to be kept literally - keeps legitimate states legitimate and does there only what is specified or leaves the shared variables alone; the actions put on the other two lists are characterised as exactly. With such variables a candidate still meets these conditions. Every action is on at most one list, once, in order, and the answer says whether there is anything to do. (Refuted: a candidate has no forbidden move.)", "quantifier": "every network, invariant, assumption and specified protocol, stored or on-demand formulas", "why_tests_cant": "all systems", "anchors": ["src/xnsys.cc: candidate_actions"]}
{"id": "C66", "title": "Actions of the given protocol", "statement": "When every process sees what it accesses and assigns nothing at random: the actions read off the protocol a process is given are exactly those that describe one of its transitions, and reading them ends. The actions of the system are the representatives of those of the first process of each kind that accesses no variable twice (or of all of the kind). If the given protocol treats all processes of a kind alike, no transition that changes something is lost; if it also treats interchangeable links alike, no transition is added. (Refuted: none is added in general.)", "quantifier": "every network, every given protocol and every pair of states", "why_tests_cant": "all topologies and protocols", "anchors": ["src/xnpc.cc: XnPc::actions, PcSymm::actions", "src/xnsys.cc: Net::commit_initialization", "src/prot-xfile.cc: ReadProtocolFile"]}
{"id": "C67", "title": "Integer expressions", "statement": "An expression built from variables, literals, negation and the operators (sum, difference, product, quotient, remainder, power, minimum, maximum) has, in every state, the value its operators give; it is refused exactly when an operator has no meaning in some state. A comparison of two expressions holds in exactly the states where it holds of their values, and an assignment allows exactly the steps after which the left side has the value the right side had before.", "quantifier": "every system of variables, every expression, every pair of states", "why_tests_cant": "all expressions over all domains", "anchors": ["src/pfmla.cc: intmap_init_op, intmap_coerce_lookup, IntPFmla::negate, defeq_binop, cmp, img_eq", "src/pfmla.hh: IntPFmla"]}
{"id": "C68", "title": "Expressions of a protocol file", "statement": "When no name is declared twice and no quantifier reuses the name of an index in scope: every expression that is accepted (predicates, invariants, assumptions, guards, values) has a meaning in every state, and what is built from it is that meaning, with all operators, comparisons, quantifiers, conditionals, arrays whose indices go round, constants, lets and named predicates; evaluation leaves the indices in scope as they were. An expression all of whose parts have a value in every state, whose indices mention no variables and whose variables the process reads is accepted. What a process evaluates depends only on the variables it reads if the named predicates do. (Refuted: reusing the name of an index; guarding a division with &&; a let with the name of a constant; access through a named predicate.)", "quantifier": "every set of declarations, every expression, every state", "why_tests_cant": "all expressions over all declarations", "anchors": ["src/prot-xfile.cc: ProtoconFile::eval (both), eval_int, eval_gtz, eval_vbl, lookup_vbl, lookup_pfmla, lookup_int, within_process"]}
{"id": "C69", "title": "Actions of a protocol file", "statement": "An accepted action (guard --> assignments) of a process has exactly the steps it describes: its guard is true before; afterwards the assigned variables have the values that the expressions had before, modulo their domain sizes, and the written variables it does not mention keep theirs (when it is added, or says '_;') or have any value (when it is permitted or forbidden, or says '_ := _'); it constrains no other variable. Variables read at random may be redrawn under the guard. With -=> it loses the steps that, as the process sees them, lie on or between cycles, in particular all self-loops, and nothing else if it disables itself; an action that assigns a variable the process cannot read loses its self-loops. An action whose parts all have values and that assigns only variables of its process is accepted. Adding an action adds exactly these steps to each process and, with all else unchanged, to the system; permitting and forbidding mark exactly them. (Refuted: an assignment after '_ := _' ; one variable written through two accesses; -=> removes self-loops only; -=> removes only steps on cycles.)", "quantifier": "every network, process, set of declarations, action, role and pair of states", "why_tests_cant": "all actions over all declarations and states", "anchors": ["src/prot-xfile.cc: ProtoconFile::parse_action (both), add_action, forbid_action, permit_action", "src/pfmla.cc: cycle_ck", "src/prot-xfile.leg: Action", "doc/webtex/permit.tex"]}
{"id": "C70", "title": "Synchronous steps", "statement": "The transition relation of a synchronous system has exactly the steps in which every process that can execute one of the given actions does so (fully synchronous) or in which any of the processes do (semi-synchronous), all from the same state and at once, where the others keep their variables, variables nobody writes keep their value and some variable that does not change by itself changes. It is refused exactly if one variable can be written through two accesses. Every fully synchronous step is a semi-synchronous one, and so is every change by one process alone. Without variables that change by themselves, the system is at rest exactly where the asynchronous one is.", "quantifier": "every network, set of given actions and pair of states", "why_tests_cant": "all networks, protocols and states", "anchors": ["src/xnsys.cc: Net::sync_xn, Net::semisync_xn", "src/stabilization.cc: stabilization_ck", "src/opt.cc: -synchronous, -semisynchronous"]}
{"id": "C71", "title": "The text written of expressions and actions", "statement": "An expression or an action of a protocol file, as it is written to the output file, is read again as the very same expression or action, unless an equality of predicates written '==' is an operand of a tighter operator. The text kept of several assumption statements holds exactly where all of them hold, and so does the text of several invariant statements if no statement after the first has an operator weaker than '&&' at its top. Every expression, of whatever structure, has a text that is read with its meaning. (Refuted: an equality of predicates beside '&&'; a second invariant with '||'.)", "quantifier": "every text, every expression and action read from it, every list of statements", "why_tests_cant": "all expressions of all sizes", "anchors": ["src/prot-xfile.leg: ActionExpr, Expr and below, ConstExpr and below", "src/prot-xfile.cc: string_expression, parend_string_expression, parse_action, add_pc_assume, add_pc_legit, add_assume, add_legit", "src/prot-ofile.cc"]}
{"id": "C72", "title": "Declared accesses", "statement": "Each process of a kind accesses exactly the variables that its read:/write:/... declarations name, in their order, where in a 'symmetric' block every reference stands for one variable per tuple of values. The kind of process has the declared types of access and the declared symmetric blocks. The declarations written to the output file are read again as the same declarations. The text by which an action in the output file refers to an accessed variable is read as that variable, if the values in its block are put in place of a whole index or need no parentheses. (Refuted: a block whose values mention the name they define does not end; 'x[2*j]' with j := i-1 becomes 'x[2*i-1]'.)", "quantifier": "every list of declarations, every number of processes and values of their indices, every state", "why_tests_cant": "all declarations, all processes, all texts", "anchors": ["src/prot-xfile.cc: add_access, add_symmetric_links, add_symmetric_access, string_expression", "src/prot-xfile.leg: VblAccessType, SymmetricLinks", "src/xnsys.cc: Net::add_access", "src/prot-ofile.cc: oput_protocon_pc_vbls", "src/xnpc.hh: vbl_name"]}
{"id": "C73", "title": "The solution in the output file", "statement": "The actions written to the output file, without minimisation, are read again and accepted, and give every process exactly the steps of the actions of the solution (tested values before, assigned values after), if the names of the accesses are read back (C72), the process sees some variable and those that change by themselves. For kinds of processes that see what they write, reading all of them adds these steps and no others. For processes that see everything they access, the actions found in the system read back are those of the solution that a process can take; all of them if each kind has a process with different variables and nothing is assumed. (Refuted: the text of an action of a process that sees nothing is not read.)", "quantifier": "every network, solution, process and pair of states", "why_tests_cant": "all networks, all sets of actions", "anchors": ["src/prot-ofile.cc: oput_protocon_pc_act, oput_protocon_pc_acts, oput_protocon_file", "src/xnpc.cc: puppet_self_loop_ck", "src/xnpc.hh: vbl_name, X::Pc act ordering", "src/prot-xfile.leg: puppet actions"]}
{"id": "C74", "title": "The checks selected by -uniring", "statement": "The cycle check selected by -uniring ends for all processes and closed assumptions, and what it reports exists: the states it returns are no deadlocks and can be reached from a cycle in the assumed set. In a unidirectional ring whose processes are listed in the direction in which values travel and cannot act twice in a row it misses nothing: it reports a cycle if and only if there is one, its result lies in a closed invariant if and only if all cycles do, and together with the deadlock test it succeeds if and only if the ring converges. The number of layers counts rounds of turns. (Refuted: it misses cycles if the ring is listed the other way round or if processes can act twice in a row, and stops the program if processes have a choice. The reachability check selected by -uniring only looks for deadlocks when processes cannot act twice in a row, and otherwise can reject rings that can always reach the invariant, or never end.)", "quantifier": "every system of processes, ring, closed assumption and invariant, limit of layers, state", "why_tests_cant": "all rings of all sizes and all cycles in them", "anchors": ["src/xfmlae.cc: uniring_cycle_ck, uniring_weak_convergence_ck", "src/stabilization.cc: stabilization_ck", "src/synthesis.cc: check_forward", "src/opt.cc: -uniring"]}
{"id": "C75", "title": "The generator prints exactly the undecided protocols it ranges over", "statement": "For three or more values the search of generate ends without a failed claim. What it prints are different protocols, each deterministic, self-disabling, without the two-action livelocks, undecided by the livelock check at the period limit, with every action on a cycle of continuations, and accepted as smallest renaming. If the guided check is off, every such protocol within the depth limit is printed. Given actions restrict this to the protocols that start with them. A run limited by -bfs together with the runs that continue from the tables it leaves print the same as one unlimited run. (Refuted: one or two values fail a claim; with the guided check a protocol that passes the checks can be missing; two printed protocols can be renamings of each other.)", "quantifier": "every number of values, limits, -nw-disabling, -trustme, given actions, every protocol", "why_tests_cant": "the number of protocols grows beyond enumeration with the number of values", "anchors": ["src/uni/generate.cc: searchit, recurse, periodic_leads_semick, trim_coexist, commit_domsz", "src/uni/unifile.cc: map_livelock_ppgs", "src/uni/canonical.cc: canonical_ck"]}
{"id": "C76", "title": "The generator misses no hard livelock", "statement": "If a protocol the generator ranges over has a livelock on some ring, of any size, but no periodic livelock block within the period limit, then the unlimited run without the guided check prints a protocol that is, up to the names of the values, part of it. So a run that prints nothing shows that the limit decides livelocks for all self-disabling protocols with this number of values and all ring sizes: 3 for three values, 9 for four.", "quantifier": "every number of values, limit, protocol and ring size", "why_tests_cant": "all rings of all sizes for all protocols", "anchors": ["src/uni/generate.cc: searchit", "src/uni/livelock.cc: livelock_semick"]}
{"id": "C77", "title": "The tables of the generated UDP code fit together", "statement": "For every network the generated process_of_channel, variable_of_channel and domsz_of_variable are consistent: channels of a process are numbered from 0 without gaps, lead to different other processes and have exactly one channel back; sender and receiver of a channel agree on which variable each position of a packet holds; every process that has a variable gets it from its owner, which is a writer if there is one; domain sizes are those of the variables. If every variable has one writer and no process has one twice, the generated code meets the requirements of the runtime properties, so a process acts on values its neighbours really had.", "quantifier": "every network and every protocol for it, and every network the code is printed for", "why_tests_cant": "networks of any shape and number of processes; the tests use a few rings", "anchors": ["src/udp-ofile.cc: oput_udp_include_file", "src/udp-impl/protocol.c: channel_idx_ck, recv_Packet"]}
{"id": "C78", "title": "The generated UDP code does the protocol's actions and repairs assumptions", "statement": "action_assign turns the values a process sees into exactly those results its actions allow (a visible change if there is one, nothing otherwise), also when the code was made from a process of a smaller network; assume_assign makes the assumption true, changes nothing if it is true, and changes only variables the process may write; generation ends and fails exactly if no single assignment repairs the assumption.", "quantifier": "every network, set of actions, process and valuation", "why_tests_cant": "all protocols, all values and random numbers", "anchors": ["src/udp-ofile.cc: oput_udp_include_file"]}
{"id": "C79", "title": "The search by several threads", "statement": "For every number of threads, interleaving, interrupt and limit: whatever a thread counts as a solution keeps the given actions, adds usable candidates only and passed the check of every instance; the result is the last one counted, and without -try-all at most one is counted; solutions go to different files; after an interrupt nothing is counted any more. For one or two instances without limits on depth: if all threads leave without an interrupt and there is no result, there is no solution; with -try-all every solution contains a counted one; a solution rejected by the conflicts that are written contains a counted one. If solutions are recorded as conflicts, no counted one contains an earlier one. (Refuted: with a limit on the size of conflicts below that of a solution the same solution is counted again and again.)", "quantifier": "every number of threads, schedule of their steps, interrupt point, choice of candidates, option, set of instances, conflict family", "why_tests_cant": "interleavings of any length of any number of threads", "anchors": ["src/search.cc: stabilization_search, stabilization_search_init, set_done_flag"]}
{"id": "C80", "title": "Minimising conflicts", "statement": "The minimised conflicts reject everything the given ones reject and no solution, in whatever order they are minimised and however they are distributed among threads. The orders by size contain every conflict once.", "quantifier": "every conflict family, one or two instances, order and distribution among threads", "why_tests_cant": "all conflict families and all solutions", "anchors": ["src/search.cc: initialize_conflicts, stabilization_search (MinimizeConflictsTask)", "src/synthesis.cc: add_small_conflict_set"]}
{"id": "C81", "title": "Agreement of MPI processes on the result, and the verdict on several files", "statement": "If every solution found has at least one layer, exactly one process of an MPI run writes a result, the first of those whose solution has the fewest layers, and no solution is reported exactly if no process found one; never do two write. (Refuted: one solution without layers -- every one of the rank/shuffle search and of the verification -- makes the run report that there is none. The verdict on several files is that some file stabilises.)", "quantifier": "every number of processes and what each found; every list of files", "why_tests_cant": "any number of processes", "anchors": ["src/main-mpi.cc: stabilization_search", "src/search.cc: multi_verify_stabilization", "src/main.cc: main"]}
{"id": "C82", "title": "Options of the interactive simulator, and reading them back", "statement": "In every state, show-img (show-pre) prints exactly one line for each other state of the current restriction that one transition leads to (comes from), all different; giving a line to assign leads to that state and, in any other state, changes the same variables only; assignments are done from left to right with values taken modulo the domain; and no text whatsoever takes a variable out of its domain. (Refuted: what show-state prints cannot be read back.)", "quantifier": "every transition relation, restriction, state and typed line", "why_tests_cant": "any protocol, state and text", "anchors": ["src/interactive.cc: Interactive::img_options, pre_options, assign, parse_variable"]}
{"id": "C83", "title": "Sessions of the interactive simulator", "statement": "After every sequence of commands, each command answers what it should in the states that the predicate commands so far restrict the simulator to: step follows a path of offered states and prints its lines, stopping early only where nothing is offered; show-sat prints whether the state satisfies each predicate in use; no predicate is used before it is computed; and a random step can take every option. (Refuted: with an assumption that is not closed the cycle predicate may never be computed; the first state may lie outside of the assumption.)", "quantifier": "every protocol, sequence of commands and random choices", "why_tests_cant": "any number of commands in any order", "anchors": ["src/interactive.cc: interactive, Interactive::reset_mask_pfmla, state_pfmla"]}
{"id": "C84", "title": "Random states and synchronous steps of the interactive simulator", "statement": "randomize leads to a state of the restriction whenever there is one, can lead to each of them and otherwise leaves the state; sstep gives every variable that an offered state changes a value that one of them gives it, leaves the others, and does exactly all changes when no two offered states change the same variable. (Refuted: sstep may leave the restriction.)", "quantifier": "every protocol, restriction, state and random choices", "why_tests_cant": "any shuffle and any random numbers", "anchors": ["src/interactive.cc: Interactive::randomize_state, interactive"]}
{"id": "C85", "title": "The classifier of ring protocols", "statement": "For every protocol and pair of periods classification ends and its answer is exact: the least width between the two periods of a repeating block of local actions; silent only if no strip of the maximum number of columns repeats; unknown otherwise. So silent means livelock-free on rings of every size (self-disabling protocols), livelock means livelocks on arbitrarily large rings, a definite answer never changes when the maximum is raised, every livelock is classified once the maximum is large enough, and the two methods never contradict each other. (Refuted: -nobdd honours the minimum period.)", "quantifier": "every propagation table, domain size, minimum and maximum period, ring size", "why_tests_cant": "rings of any size and protocols of any domain", "anchors": ["src/uni/classify.cc: bdd_classify, tile_classify, column_xfmla, main"]}
{"id": "C86", "title": "Ring protocols made from Wang tiles", "statement": "For every set of Wang tiles: the actions made by either reduction lie in the reported domain, are self-disabling and N-disabling (and commutative for -commute), and pass the final check exactly if the tiles are NW-deterministic; the actions tile a quadrant, or tile periodically, exactly if the Wang tiles do; hence the written protocol has a livelock on some ring exactly if the tiles tile periodically. The protocol stored in unifile.cc is the reduction of the stored tiles. (Refuted for tiles that use the colour UINT_MAX.)", "quantifier": "every finite set of Wang tiles, every ring size", "why_tests_cant": "infinite tilings and rings of any size", "anchors": ["src/uni/aperiodic.cc: ReduceToActionTiles, ReduceToCommutativeTiles, LookupSymId, check_constraints", "src/uni/unifile.cc: tilings_and_patterns_aperiodic_uniring"]}
{"id": "C87", "title": "Text forms of a ring protocol", "statement": "The protocol file that the ring tools write for a list of actions, read by the main tool with any number of processes, gives process i its own variable and that of its predecessor and makes exactly the steps of the protocol; so it can run forever exactly if the protocol has a livelock on a ring of that size. A written list of actions is read back with the smallest domain that has all its values. The translator gives, from a list or an id, an id, a list and a protocol file of one and the same protocol, and translating its results again gives the same results; a domain that is too small is refused. (Refuted: lists with two actions for the same values; -domsz 256.)", "quantifier": "every list of actions, every table, every domain size up to 255, every ring size, every pair of states", "why_tests_cant": "rings of any size and protocols of any domain", "anchors": ["src/uni/xlate.cc: main", "src/uni/unifile.cc: xget_triple, xget_list, oput_list, oput_protocon"]}
{"id": "C88", "title": "Promela model of a solution", "statement": "The model written for the SPIN model checker starts in every state of the target system, never reads or writes outside its arrays or the domains of the variables, and goes from one state to another exactly if a process of the target system takes a step of the solution there, provided that what the process sees is compatible with the assumption of the processes of its kind. This is so for protocols without shadow variables, whose index expressions mean the same in C, where every kind of process has actions. (Refuted: index expressions with %; a kind of processes without actions before one with actions; shadow variables.)", "quantifier": "every synthesis network, every target network of the same protocol, every list of actions, every pair of states", "why_tests_cant": "systems of any size and all their steps", "anchors": ["src/promela.cc: OPutPromelaModel, OPutPromelaPc, OPutPromelaAction, OPutPromelaVblRef, OPutPromelaSelect", "src/xnsys.cc: Net::unroll_action"]}
{"id": "C89", "title": "Choice of the next action", "statement": "Whenever a candidate is left, the search tries a candidate of some instance, whatever the options, the random numbers and the recorded conflicts are; unless everything is random, it is enabled in an unresolved state with the fewest choices of all instances, and by default in an instance with the fewest candidates for such states. For a single instance, each way of picking prefers what it promises: -pick-reach a new path to the invariant, niceness the nicest process, greedy the greatest sum of choices resolved, lcv the fewest candidates left over, conflict the members of recorded conflicts, quick the actions that enter the states with a path to the invariant; without -random it is the least action for mrv and lex, with -random any of them can be drawn, and of actions that differ in randomised guards only the first is taken. So what C44 and C62 say of a search holds of the real one.", "quantifier": "every level of every search, every option, every sequence of random numbers, every set of conflicts", "why_tests_cant": "searches of any length over any instances", "anchors": ["src/synthesis.cc: PickActionMRV, pick_action_candidates", "src/opt.cc: -pick, -pick-reach"]}
{"id": "C90", "title": "Meaning of a protocol file", "statement": "A protocol file that is read means what its statements say: the states it assumes are those where every assumption is true, inside a process definition for every process of the kind; the same for the legitimate states; every process has the assumption, the invariant, the actions, the permitted and the forbidden steps that its statements give for its index, and the steps of the system and of the specification are theirs together. An expression means what it means where it stands, with the predicates before it. A file whose expressions have values and whose invariants are of one kind is read, and no file with two kinds is.", "quantifier": "every file: all declarations, all lists of statements inside and outside of process definitions, any number of kinds and processes, all states and steps", "why_tests_cant": "unboundedly many files, systems and states", "anchors": ["src/prot-xfile.cc: add_pc_predicate, add_pc_assume, add_pc_legit, add_predicate, add_assume, add_legit, assign_legit_mode", "src/prot-xfile.leg: Predicate, Assumption, Legit, PcDef"]}
{"id": "C91", "title": "The ring synthesis program, from file to file", "statement": "Given a protocol file of a unidirectional ring without actions whose processes all find the same pairs (left value, own value) legitimate, the program finds exactly these pairs, each once, and the legitimate states of the file are those with such pairs everywhere. The protocol file that it writes, read again with any number of processes, never runs for ever, does not leave a state with such pairs everywhere, and ends only in such states if every value that the root leads to and that can go on for ever leads back. A file is accepted if and only if nobody can act, there are at least two processes, no invariant outside the processes says more, and the first process reads one variable and writes another one.", "quantifier": "every file, every ring size of the input and of the output, every domain up to 255, every set of pairs", "why_tests_cant": "unboundedly many files, ring sizes and states", "anchors": ["src/uni/synthesize.cc: main, ReadUniRing", "src/uni/unifile.cc: oput_protocon"]}
{"id": "C92", "title": "The declarations of a protocol file", "statement": "A constant has the value given on the command line, or else the value of its first declaration. An array of variables has the declared size, domain and role; each member of each array is one variable of the system, there are no others, and the variables of an array are in order. A kind has as many processes as it says; process number i has the declared index, the declared lets at that index, and accesses the declared variables in the declared ways. Negative numbers of processes and empty arrays or domains are refused. So the meaning of the statements (C90) holds of every file that is read, from its text.", "quantifier": "every file, every constant given on the command line, every size", "why_tests_cant": "unboundedly many files, sizes and states", "anchors": ["src/prot-xfile.cc: add_variables, add_processes, add_constant, add_constant_list, add_let, eval_int, eval_nat, eval_gtz", "src/xnsys.cc: Net::add_variables, commit_variable, commit_variables, add_processes", "src/prot-xfile.leg: ProtoconFile, ConstDecl, VarDecl, ProcDecl"]}
{"id": "C93", "title": "The conflicts listed in a protocol file", "statement": "An action in a list of conflicts is accepted exactly when all its steps, in the first process of the kind whose variables are different, test and assign the same values; these are what is noted, and they are an action of the kind with a number of its own if the process only reads and writes variables of the protocol. Lists of conflicts change neither the system nor the processes nor the conflicts the search starts with.", "quantifier": "every file, every list of actions, every kind of process, every set of conflicts the search starts with", "why_tests_cant": "unboundedly many files, actions and states", "anchors": ["src/prot-xfile.cc: ProtoconFile::conflict_action, push_conflict_action", "src/prot-xfile.leg: ConflictActionDef", "src/synthesis.cc: SynthesisCtx::add", "src/xnpc.cc: PcSymm::init_representative"]}
{"id": "C94", "title": "The instances a command line asks for", "statement": "Every -param makes exactly one instance for each combination of the values of its constants (a range counts from one end to the other, a value in parentheses is one list), with the options given before it and in it, the last value of a name being the one that counts; without -param the whole line does so. The file of an instance sees the chosen numbers whatever it declares itself, the system's own file sees the values given before -x, and the constants written for an instance stand for the same numbers when used without an index.", "quantifier": "every command line, every combination of values, every file read with them", "why_tests_cant": "unboundedly many command lines, values and combinations", "anchors": ["src/opt.cc: handle_param_arg, parse_NatMap, push_instances, parse_param, protocon_options", "src/xnspec.hh: NatMap", "src/prot-xfile.leg: ReadProtoconFile", "src/prot-ofile.cc: oput_protocon_constants"]}
{"id": "C95", "title": "Action numbers mean the same in all instances", "statement": "Two readings of one protocol file with different constants have the same kinds of processes, accesses, access types, roles and symmetric links, so they can differ in domains only; a system and its instances are accepted together exactly when all can be read and no access has another domain in an instance, and then every action number is the same action (kind, guard values, assigned values, representative) in the system and in every instance the command line asks for.", "quantifier": "every protocol file, every command line, every choice of constants, every action number", "why_tests_cant": "unboundedly many files, constants and instances", "anchors": ["src/xnpc.cc: PcSymm::dom_equiv_ck", "src/search.cc: stabilization_search_init", "src/prot-xfile.cc: add_variables, add_access", "src/opt.cc: push_instances"]}
{"id": "C96", "title": "A solution written by way of espresso is the same solution", "statement": "The table of bits written for the actions of a kind of processes stands for exactly the actions of the solution, if the processes see all that they access and do not write at random; whatever equivalent table comes back, if all of its lines can be written as actions, then these can be read, and in every state they allow exactly the assignments of the actions of the solution.", "quantifier": "every network, every solution, every equivalent table, every state", "why_tests_cant": "unboundedly many networks, solutions and tables; the outside program may answer any equivalent one", "anchors": ["src/pla.cc: oput_pla_val, oput_pla_act, oput_pla_pc_acts, oput_pla_file, oput_protocon_pc_act, oput_protocon_pc_acts_espresso_spawn"]}
{"id": "C97", "title": "A system that passes the first check makes sense", "statement": "The check made on a system before synthesis or verification accepts it if and only if only variables of the implementation are read at random and, whatever values these variables have, the other variables can be chosen such that the state is legitimate; the check stops at an internal claim exactly when a variable of the specification with more than one value is read at random; small instances are not checked.", "quantifier": "every system: all networks, roles, kinds of access and invariants", "why_tests_cant": "unboundedly many networks and invariants; a test sees only the verdict for one system", "anchors": ["src/xnsys.cc: Sys::integrityCk, Net::commit_initialization", "src/xnsys.hh: smooth_shadow_vbls, proj_shadow", "src/opt.cc: init_sysdef"]}
{"id": "C98", "title": "The style of an invariant has one meaning wherever it is written", "statement": "A protocol file gives an invariant a style exactly when the text at that place is one of the documented ways to write this style, with any white space and comments between the words; no text stands for two styles; a style that a file can have is written to the output such that it is read as the same style, whatever follows; the command line option ignores blanks and nothing else, and gives a style that may also be written in a file the same meaning.", "quantifier": "every text, every style, every argument of the option", "why_tests_cant": "unboundedly many texts, with white space and comments; the grammar tries alternatives in order, so that an earlier one may hide a later one", "anchors": ["src/prot-xfile.leg: LegitMode, LegitStmt, WS", "src/prot-ofile.cc: string_of_invariant_style", "src/opt.cc: eqck_skipws, parse_style"]}
{"id": "C99", "title": "The picture of a network shows who depends on whom", "statement": "In the graph that is written for a network there is one node for each process, and an arrow from one process to another if and only if the first may write a variable that the second mentions; between two processes there is at most one line, with two heads if each may write what the other mentions.", "quantifier": "every network", "why_tests_cant": "unboundedly many networks; a test sees one picture", "anchors": ["src/graphviz.cc: oput_graphviz_file"]}
{"id": "C100", "title": "A suggested protocol that is accepted is a solution", "statement": "When protocols are suggested for testing (-test with -x-try), each accepted suggestion contains the given actions and stabilises every instance; of a suggestion to take a part of (-x-try-subset), the returned part consists of given actions and usable candidates of the suggestion and stabilises every instance. The test says yes if and only if there is a suggestion and every suggestion was tested and accepted, for every number of threads and every order of their steps. A search that starts from a suggestion returns a solution that contains it.", "quantifier": "every set of instances, given actions, suggestions and order of their actions, family of conflicts, limits, choice of actions, number of threads and schedule", "why_tests_cant": "unboundedly many instances, suggestions and interleavings of threads", "anchors": ["src/search.cc: stabilization_search (TestTask, solution_guesses)", "src/synthesis.cc: PartialSynthesis::pick_actions, pick_actions_separately", "src/synthesis.hh: candidate_ck, delegate_ck", "src/opt.cc: -x-try, -x-try-subset"]}
{"id": "C101", "title": "Local invariants of bidirectional rings: which views occur and which ring sizes are possible", "statement": "For a set of local views (predecessor's value, own value, successor's value), cutting the set keeps exactly the views that occur in a legitimate state of some ring and changes the legitimate states of no ring. With a least ring size given, the check of satisfiability says yes exactly if every ring of at least that size has a legitimate state; without one, exactly if all large enough rings have one; cutting first does not change the answer. The check whether local propagation can work says yes exactly if the process of every view outside of the set can take a value whose view is in the set, or whose view would still occur nowhere if it were added. Each check ends.", "quantifier": "every number of values, every set of views, every least size and every ring size", "why_tests_cant": "the claims are about rings of unboundedly many processes", "anchors": ["src/biring.cc: biring_legit_enum_idx, biring_fixpoint, true_biring_sat_ck, biring_sat_ck, local_propagation_syn"]}
{"id": "C102", "title": "The enumeration of local invariants of bidirectional rings prints each class once and misses none", "statement": "Two sets of views get the same canonical form exactly if they differ only in the names of the values, and the canonical form is the largest of them. The search for a known set says yes exactly if some renaming of values puts all its views into the given set. The enumeration ends; no two printed sets differ only in the names of the values; every view of a printed set occurs in a legitimate state of some ring, the ring sizes asked for are possible, and unless trivial ones are wanted no view has three equal values. Every set with these qualities is printed under some names of the values; with the option of pairs, exactly those given by pairs of neighbouring values.", "quantifier": "every number of values, every set of views, every strict total order of tables, every least size and setting of the options", "why_tests_cant": "the number of sets is exponential in the cube of the number of values, and the sizes of rings are unbounded", "anchors": ["src/biring.cc: permute_pc_config, canonical_set, subgraph_isomorphism_ck, recurse, searchit"]}
{"id": "C103", "title": "The filter of local invariants of bidirectional rings answers as documented and prints the invariant it was given", "statement": "The test for the documented pattern says yes exactly if there are four values as described, and a set with the pattern has legitimate states for all rings of two or more processes. The tests for known sets are exact when there are enough values. The smaller sets that are printed are proper parts of the given set, no two the same up to names, with all views occurring and the sizes asked for possible, and every proper part with these sizes is inside of one of them. The printed invariant holds for a view exactly if the view is in the set (with the option of pairs: if some view with the same first two values is), and the action of the specification with one more value is enabled exactly where no old value would do.", "quantifier": "every number of values, every set of views, every strict total order of tables, every least size, every ring size", "why_tests_cant": "the number of sets is exponential in the cube of the number of values, and the sizes of rings are unbounded", "anchors": ["src/biring.cc: subck_match, subck_2match, subck_3match, subck_next7, echo_subsets, oput_biring_invariant, oput_biring_protocon_spec"]}
{"id": "C104", "title": "The pictures of local invariants of bidirectional rings show exactly the legitimate states", "statement": "The picture has an arrow from the pair of the first two values of a view to the pair of its last two exactly if the view is in the set and some view of the set can follow; each arrow is printed once and both its ends are nodes of the picture. The legitimate states of a ring are exactly the closed walks of its size in the picture. With the option of pairs there is one arrow for each pair of first two values, and for a set given by pairs the closed walks are again exactly the legitimate states.", "quantifier": "every number of values, every set of views, every ring size and state", "why_tests_cant": "the sets and the sizes of rings are unbounded", "anchors": ["src/biring.cc: oput_graphviz"]}
