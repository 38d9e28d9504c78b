NOTES['C04']="Bit order inside a field is a parameter; both orders proved. Domain sizes 1..255 (PcState is a byte)."
NOTES['C05']="Well-formedness needs tokens no longer than the id of domain size 255; C05_long_token_refuted and C05_no_overrun_refuted record the two defects outside that."
NOTES['C07']="Holds for rings of any size; the self-disabling hypothesis of the claim is needed (C07_not_self_disabling_refuted). limit 0 is not modelled (callers pass a positive limit)."
NOTES['C09']="The returned set only contains actions of the protocol, but is not always enough for a livelock by itself: C09_recorded_set_sufficient_refuted."
STATUS['C15']='partial'
NOTES['C15']="False as stated: C15_accepts_only_minimal_refuted (M=3) shows the swap enumeration misses permutations. Proved: exact for M<=2, and no improvement by the transpositions that are enumerated."
NOTES['C18']="Exact characterisation proved; the unconditional claim is false (C18_silent_is_legitimate_refuted)."
NOTES['C21']="For families built by additions, merges, trims and exchanges. C21_after_reading_refuted: a family read from a file is not reduced and the check can then be wrong."
NOTES['C22']="The file form is modelled as the sequence of numbers written; the text layer is external."
NOTES['C23']="Transport (MpiDissem, external) taken as lossless. C23_read_conflicts_not_sent_refuted: conflicts read from a file after the first flush are never sent."
STATUS['C28']='partial'
NOTES['C28']="False as stated: C28_no_deadlock_claim_refuted and C28_mixed_ring_missed_refuted. Proved when no illegitimate silent local state can directly follow another; and the converse direction in full."
NOTES['C27']="The node list (silent local states picked from the decision diagram) is the model's input."
NOTES['C29']="BDD operations on state sets are modelled by their meaning (boolean functions over a finite universe)."
NOTES['C32']="The unconditional claims are false: C32_always_terminates_refuted and C32_answer_within_refuted."
NOTES['C35']="Transition and state formulas are modelled by their meaning over a finite state space. The uniring option and messages are not modelled. C35_accepted_candidates covers the use during synthesis with different lower and upper relations."
NOTES['C36']="For a non-closed invariant the livelock message may be given although no execution leaves the invariant twice (C36_livelock_is_a_livelock_refuted); what it does mean is C36_livelock_witness."
NOTES['C52']="Probability is modelled qualitatively: every transition of the scheduled process has positive probability."
STATUS['C54']='partial'
NOTES['C54']="False as documented: C54_returned_states_simulate_refuted and C54_silent_style_refuted. Proved: the core of C53 obeys the style, and future & silent does end all executions when there are puppet variables."

NOTES['C37']="The decision diagrams underneath (glu MDD) are modelled by their meaning."
STATUS['C38']='partial'
NOTES['C38']="False as stated: C38_constant_true_relation_refuted (empty set with a context, constant-true relation). Exact otherwise."
NOTES['C57']="C57_pick_pre_of_nothing_refuted: picking from an unsatisfiable formula with a context does not give the empty set."
STATUS['C59']='partial'
NOTES['C59']="The image of the constant-true set forgets the variables that are not written: C59_image_of_everything_refuted (it contains the real image: C59_image_of_everything_contains). Exact for all other sets, and all pre-images."

NOTES['C45']="Values are unbounded naturals instead of bytes; sockets, timers and logging are not modelled."
NOTES['C48']="The text's first form (after every receive) is false for a corrupted process: C48_stale_packet_refuted."
NOTES['C50']="C50_process_60_refuted: process 60 is seeded with 0 and draws the same word forever. Only the build without UseRandomDevice."
NOTES['C60']="Well-formedness of the generated tables is a hypothesis (met by the shipped example); a process keeps one copy of each variable it reads. Fresh ids: the 16-bit counter with a 16-bit random key is assumed not to collide with a packet under way."
STATUS['C61']='partial'
NOTES['C61']="False: C61_atomic_refuted (the shipped three-colour ring, reliable in-order delivery) and C61_one_way_ring_refuted. What does hold is C60."

STATUS['C39']='proved'
NOTES['C39']="Networks are lists of kinds of process with arbitrary accesses (read, write, yield, effect, random; direct, shadow, puppet) and domains."
STATUS['C40']='proved'
NOTES['C40']="For the layouts the protocol-file parser builds (C40_declared_processes). C40_unordered_links_refuted: with links added in another order through the C++ API, renamings can keep different representatives."
STATUS['C43']='proved'
NOTES['C43']="Random accesses excluded by hypothesis. The safety test used without forced disabling is a parameter (any function)."

STATUS['C41']='proved'
NOTES['C41']="C41_revise_stops_refuted: if a deadlock is left that nothing resolves, the incremental revision may stop the program with a failed check (the flag that enables it is off by default)."
STATUS['C42']='proved'
NOTES['C42']="Fuel above the number of states is always enough (part of the statements)."

STATUS['C44']='proved'
NOTES['C44']="Holds for randomised, shadow and synchronous systems as well; C44_found_stabilises spells the check out for plain instances (see C54, C55 for the check itself). Refuted beside it: the try-order variant can poison the conflict family and can read a candidate that is not there; forced actions are not tested for coexistence."
STATUS['C62']='proved'
NOTES['C62']="Both answers 'no solution' (failed first revision, exhausted search) are covered, for one or two instances that meet the record searchable. The two conditions that matter are shown to be needed: C62_three_instances_refuted, C62_two_specified_moves_refuted."
STATUS['C63']='proved'
NOTES['C63']="For each set of states handed over by cycle_ck (every state has a predecessor and a successor in it)."

STATUS['C64']='proved'
NOTES['C64']="C64_modes_agree_refuted and C64_union_lightweight_refuted show where stored and on-demand formulas part."

STATUS['C65']='proved'
NOTES['C65']="C65_exact for systems without shadow variables, C65_sound for all. C65_forbidden_refuted: an action stays a candidate, with its forbidden moves, if one of its symmetric variants has a move that is not forbidden."

STATUS['C66']='proved'
NOTES['C66']="For kinds of process that see all their variables and assign none at random. C66_links_refuted: the given actions are replaced by representatives of their class, so a protocol that tells interchangeable links apart gains transitions."

STATUS['C67']='proved'
NOTES['C67']="Integers without overflow. Tables of variables and literals, not the ranges that quantifiers use."

STATUS['C68']='proved'
NOTES['C68']="Scope'd lets (only used while links are declared) are not modelled. C68_rebinding_refuted, C68_guarded_refuted, C68_let_refuted, C68_access_refuted: findings 26-29."

STATUS['C69']='proved'
NOTES['C69']="For processes that write each of their variables through one access and actions in which '_ := _' comes last; both conditions are shown to be needed (C69_written_twice_refuted, C69_any_first_refuted). C69_rotation_refuted, C69_between_cycles_refuted: what -=> removes beyond self-loops (findings 30-33)."

STATUS['C70']='proved'
NOTES['C70']="The actions are given by representatives of their classes, as everywhere in the program."

STATUS['C71']='proved'
NOTES['C71']="On token lists. iffs_apart and weaker_than_and are the conditions under which it is true; C71_equality_refuted and C71_invariants_refuted show that they are needed (findings 34, 35)."

STATUS['C72']='proved'
NOTES['C72']="For declarations of integer arithmetic (names, numbers, operators, parentheses, array members) in which the names of a block are new, different and not mentioned in its values. C72_circular_refuted and C72_names_refuted: findings 36, 37."

STATUS['C73']='proved'
NOTES['C73']="Text without espresso. The conditions on declarations are those of C72; C73_blind_refuted shows that the process must see something (finding 38)."
STATUS['C74']='proved'
NOTES['C74']="Exactness is for rings listed in the direction of the values whose processes cannot act twice in a row; the refuted theorems show that both conditions are needed and what the reachability check does instead (findings 39-41). C74_layers_count_rounds: rounds start at the states of the unmasked image (C59)."

STATUS['C75']='proved'
NOTES['C75']="The variant -bdd is not modelled. The refuted theorems show the three places where the generator does not do this (findings 42-44); the lost protocol of finding 43 is a renaming of a printed one."
STATUS['C76']='proved'
NOTES['C76']="C76_four_values_decided computes the whole search for four values in the kernel (about 40 s)."

STATUS['C77']='proved'
NOTES['C77']="The refuted theorems show why one writer per variable, no variable seen twice and no absent kinds are needed (findings 45-47). C77_runtime and C77_regular_reads join the generator with the runtime of C60."
STATUS['C78']='proved'
NOTES['C78']="C78_actions_exact is about the process of the synthesised network the code is made from; C78_actions_of_process about the process itself, for kinds without shadow variables and randomness. C78_repairable_refuted: finding 48."

STATUS['C79']='proved'
NOTES['C79']="The steps of a thread are those between which other threads and the flag can be noticed; the default search method, no guesses, no layer optimisation. Completeness is for one or two instances (three: C62_three_instances_refuted)."
STATUS['C80']='proved'
NOTES['C80']="The conflicts consist of actions that after the start are chosen or still candidates."
STATUS['C81']='proved'
NOTES['C81']="MPI_Allreduce as maximum and minimum over all processes; the refuted theorems are findings 50 and 51."

STATUS['C82']='proved'
NOTES['C82']="next_options_spec by induction on the number of states left; C82_state_lines_refuted is finding 52."
STATUS['C83']='proved'
NOTES['C83']="An invariant over all command histories: the mask means the predicate commands given so far, cached predicates are right and present when used. The two refuted theorems are findings 53 and 54. The commands topo and show-all-xn, and the reading of command names, are not modelled."
STATUS['C84']='proved'
NOTES['C84']="C83_sessions gives the specification of randomize and sstep inside any session; these theorems add that every state is possible and when sstep is exact. C84_sstep_leaves_refuted is finding 55."

STATUS['C85']='proved'
NOTES['C85']="The chain formula over x0..xmax is shown to mean a step of all columns at once, so its cycles are the strips and blocks; cycle_ck is the fixpoint of C59/C60. C85_nobdd_minimum_refuted is finding 56."
STATUS['C86']='proved'
NOTES['C86']="The id map is shown injective and the grid of ids is read as a grid of symbols; the 2x2 (3x3 for the commutative one, in either of two orientations) pattern is forced by case analysis from any one cell. C86_reserved_colour_refuted is finding 57. That the 16 stored tiles are aperiodic is a theorem of the literature and is not proved here."

STATUS['C87']='proved'
NOTES['C87']="The text is a list of tokens read by the modelled reader of accesses (C72) and actions (C69), so the theorem joins the ring tools to the main tool. The declarations of constants, variables and of the process head are read in outline. C87_nondeterministic_refuted and C87_domsz_refuted are findings 58 and 59."

STATUS['C88']='proved'
NOTES['C88']="The model is text for references (tokens of the index expressions, constants and lets as macros) and structure for the rest; SPIN's reading of it (macro substitution in parentheses, C arithmetic, bounds of arrays, numbering of processes after init) is the part of PmlModel that is about SPIN, not about the code. C88_mod_index_refuted, C88_idle_kind_refuted and C88_shadow_refuted are findings 60 to 62."

STATUS['C89']='proved'
NOTES['C89']="C89_found_passed_the_check and C89_not_found_means_none are C44 and C62 without their hypotheses on the choice of actions: the modelled choice meets them at every level the search reaches. The preferences of the single methods are stated for one instance, without -pick-reach and niceness. Left out: the methods that no option selects (GreedySlowPick, LCVHeavyPick, LCVJankPick); niceness is modelled as any function, though no option sets its policy."

STATUS['C90']='proved'
NOTES['C90']="C90_predicate_refuted: the hypothesis that no process names a predicate as one outside is named is needed. The declarations (constants, variables, the processes and their accesses) are given to the theorem as they stand after reading; the actions are those of C69. Left out: featherweight reading, which does not evaluate."

STATUS['C91']='proved'
NOTES['C91']="Reading is C90, the generator C16-C18, the text C87. The hypotheses are needed: C91_first_process_refuted (processes with different invariants), C91_direction_refuted (a ring in the other direction), C91_range_refuted (two arrays). C91_domain_refuted: the written domain can be smaller than that of the input, 0 if there are no actions; the theorem speaks of the written one."

STATUS['C92']='proved'
NOTES['C92']="C92_file discharges the hypotheses of C90 for files as they are read; C92_meaning puts the two together. The names must have one meaning each, and no process may write a variable twice over (writes_once). C92_twice_refuted and C92_again_refuted: what a second declaration of a name does."

STATUS['C93']='proved'
NOTES['C93']="C93_listed needs an action that can happen; C93_possible_refuted shows what is noted for one that cannot. C93_no_effect is about every accepted file: push_conflict_action is never called, so a list is read and dropped (C93_heeded_refuted); C93_pushed says what it would do. C93_action_refuted: with an effect variable the values noted are no action."

STATUS['C94']='proved'
NOTES['C94']="Instances are found once each if no value is repeated (no_repeats); otherwise each still is one of the combinations and their number is the product. The cutting of the command line into words and of a value into numbers is not modelled. C94_written_refuted: the text of a constant is not cut with its numbers."

STATUS['C95']='proved'
NOTES['C95']="init_systems is the part of stabilization_search_init that reads and compares; the rest of that function can only refuse more. C95_line joins it with the command line of C94. C95_needed_refuted: the comparison also refuses a change that leaves all numbers as they are."

STATUS['C96']='proved'
NOTES['C96']="espresso itself is not modelled: its answer is any list of lines that match the same values as the lines written, without empty fields (same_table). C96_stops says when a line can be written. The refutations show what goes wrong for two actions with one guard, for variables that are written but not seen, for shadow variables left alone and for random writes."

STATUS['C97']='proved'
NOTES['C97']="Parts of the function under 'if (false)' are left out. C97_accepted and C97_claims are exact; C97_plain and C97_about give the usual cases. The refutations show that two of the messages do not come where they should."

STATUS['C98']='proved'
NOTES['C98']="At the level of characters. C98_read is exact: the ordered choice of the grammar reads a text as a style iff it starts with a way to write it (StyleSpec: phrases). Only the start of the statement is modelled, up to the parenthesis before the expression. The refutations name the styles that cannot be read back or given as an option."

STATUS['C99']='proved'
NOTES['C99']="The lines are modelled, not the labels and the layout. C99_told_refuted: an arrow also goes to a process that only writes the variable (finding 86)."

STATUS['C100']='proved'
NOTES['C100']="On top of the model of C44. C100_yes joins the trials and the threads; without interruption, because an interrupted test says yes with suggestions untested (C100_interrupted_refuted, finding 88). That a suggestion with a solution in it is accepted is false for -x-try-subset (C100_part_refuted, C100_order_refuted, finding 87)."

STATUS['C101']='proved'
NOTES['C101']="A legitimate state of a ring of n processes is a closed walk of n steps among the views. The iterates of the image are shown to be the nodes at each distance; that the check is complete uses a ring whose size is 1 modulo the factorial of the number of views. The bound on the number of passes is shown to suffice."

STATUS['C102']='proved'
NOTES['C102']="The order of bit tables belongs to an outside library and is a parameter of the theorems. That the search misses nothing although it turns back at classes it has met: a set cut off in this way has a renaming with a smaller number as a table. With the option of pairs the number is that of the table of pairs, and a set is given by pairs if a view is in it exactly when its first two and its last two values are among the pairs."

STATUS['C103']='proved'
NOTES['C103']="Printed terms are lists of comparisons, not characters. The tests for known sets need three values; C103_known_refuted shows the access outside of the table with two. The list of fourteen sets of subck_next10 is not modelled. C103_pair_states: for sets given by pairs the shorter printed invariant allows the same states; C103_pair_states_refuted: for others it may allow more."

STATUS['C104']='proved'
NOTES['C104']="Nodes and arrows are lists of pairs, not characters; labels and layout hints are not modelled. A node is printed once for each of its views, which the reader of the picture takes as one node."
