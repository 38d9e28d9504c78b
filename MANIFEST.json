{
 "claims": [
  {
   "property": "C01",
   "status": "proved",
   "theorems": [
    "C01_action_id_roundtrip",
    "C01_action_id_onto",
    "C01_step_id_roundtrip",
    "C01_step_id_onto"
   ],
   "note": ""
  },
  {
   "property": "C02",
   "status": "proved",
   "theorems": [
    "C02_actions_of_table",
    "C02_table_of_actions",
    "C02_table_of_actions_nondeterministic",
    "C02_actset_of_table",
    "C02_actions_of_actset",
    "C02_table_actset_roundtrip",
    "C02_default_domain_size"
   ],
   "note": ""
  },
  {
   "property": "C03",
   "status": "proved",
   "theorems": [
    "C03_table_domain_size",
    "C03_actset_domain_size",
    "C03_actions_domain_size"
   ],
   "note": ""
  },
  {
   "property": "C04",
   "status": "proved",
   "theorems": [
    "C04_b64_roundtrip",
    "C04_b64_injective"
   ],
   "note": "Bit order inside a field is a parameter; both orders proved. Domain sizes 1..255 (PcState is a byte)."
  },
  {
   "property": "C05",
   "status": "proved",
   "theorems": [
    "C05_accepts_exactly",
    "C05_result_well_formed",
    "C05_long_token_refuted",
    "C05_no_overrun_refuted",
    "C05_overrun_bounded"
   ],
   "note": "Well-formedness needs tokens no longer than the id of domain size 255; C05_long_token_refuted and C05_no_overrun_refuted record the two defects outside that."
  },
  {
   "property": "C06",
   "status": "proved",
   "theorems": [
    "C06_yes_is_a_livelock"
   ],
   "note": ""
  },
  {
   "property": "C07",
   "status": "proved",
   "theorems": [
    "C07_nil_is_livelock_free",
    "C07_nil_bounds_executions",
    "C07_not_self_disabling_refuted"
   ],
   "note": "Holds for rings of any size; the self-disabling hypothesis of the claim is needed (C07_not_self_disabling_refuted). limit 0 is not modelled (callers pass a positive limit)."
  },
  {
   "property": "C08",
   "status": "proved",
   "theorems": [
    "C08_verdict_stable"
   ],
   "note": ""
  },
  {
   "property": "C09",
   "status": "proved",
   "theorems": [
    "C09_guided_hit_is_a_livelock",
    "C09_recorded_set_sufficient_refuted"
   ],
   "note": "The returned set only contains actions of the protocol, but is not always enough for a livelock by itself: C09_recorded_set_sufficient_refuted."
  },
  {
   "property": "C10",
   "status": "proved",
   "theorems": [
    "C10_subtract_exact",
    "C10_overlap_exact"
   ],
   "note": ""
  },
  {
   "property": "C11",
   "status": "proved",
   "theorems": [
    "C11_cycle_search_exact"
   ],
   "note": ""
  },
  {
   "property": "C12",
   "status": "proved",
   "theorems": [
    "C12_tile_digraph_exact",
    "C12_overapprox_digraph_exact",
    "C12_acyclic_is_livelock_free",
    "C12_overapprox_acyclic_is_livelock_free",
    "C12_no_cycle_found_is_livelock_free"
   ],
   "note": ""
  },
  {
   "property": "C13",
   "status": "proved",
   "theorems": [
    "C13_adjacency_list_refines_lists"
   ],
   "note": ""
  },
  {
   "property": "C14",
   "status": "proved",
   "theorems": [
    "C14_minimal_is_accepted",
    "C14_compared_tables_are_renamings",
    "C14_rejection_has_witness"
   ],
   "note": ""
  },
  {
   "property": "C15",
   "status": "partial",
   "theorems": [
    "C15_accepts_only_minimal_refuted",
    "C15_two_values_partial",
    "C15_transpositions_partial"
   ],
   "note": "False as stated: C15_accepts_only_minimal_refuted (M=3) shows the swap enumeration misses permutations. Proved: exact for M<=2, and no improvement by the transpositions that are enumerated."
  },
  {
   "property": "C16",
   "status": "proved",
   "theorems": [
    "C16_generator_terminates",
    "C16_generated_protocol_terminates",
    "C16_executions_bounded"
   ],
   "note": ""
  },
  {
   "property": "C17",
   "status": "proved",
   "theorems": [
    "C17_legitimate_states_silent"
   ],
   "note": ""
  },
  {
   "property": "C18",
   "status": "proved",
   "theorems": [
    "C18_silent_is_legitimate_refuted",
    "C18_converges_iff",
    "C18_silent_pairs",
    "C18_no_self_pair_no_actions"
   ],
   "note": "Exact characterisation proved; the unconditional claim is false (C18_silent_is_legitimate_refuted)."
  },
  {
   "property": "C19",
   "status": "proved",
   "theorems": [
    "C19_add_exact",
    "C19_history_exact",
    "C19_exact_check"
   ],
   "note": ""
  },
  {
   "property": "C20",
   "status": "proved",
   "theorems": [
    "C20_stored_are_the_minimal_sets",
    "C20_antichain"
   ],
   "note": ""
  },
  {
   "property": "C21",
   "status": "proved",
   "theorems": [
    "C21_unsat_iff_empty_declared",
    "C21_unsat_iff_everything_rejected",
    "C21_after_reading_refuted"
   ],
   "note": "For families built by additions, merges, trims and exchanges. C21_after_reading_refuted: a family read from a file is not reduced and the check can then be wrong."
  },
  {
   "property": "C22",
   "status": "proved",
   "theorems": [
    "C22_flat_table_is_one_by_one",
    "C22_flat_roundtrip",
    "C22_file_roundtrip"
   ],
   "note": "The file form is modelled as the sequence of numbers written; the text layer is external."
  },
  {
   "property": "C23",
   "status": "proved",
   "theorems": [
    "C23_exchange_complete",
    "C23_exchange_complete_shared_start",
    "C23_read_conflicts_not_sent_refuted"
   ],
   "note": "Transport (MpiDissem, external) taken as lossless. C23_read_conflicts_not_sent_refuted: conflicts read from a file after the first flush are never sent."
  },
  {
   "property": "C24",
   "status": "proved",
   "theorems": [
    "C24_trim_exact",
    "C24_trim_weakens",
    "C24_merge_exact",
    "C24_difference_exact",
    "C24_sizes_exact"
   ],
   "note": ""
  },
  {
   "property": "C25",
   "status": "proved",
   "theorems": [
    "C25_members_exact",
    "C25_superset_members_exact"
   ],
   "note": ""
  },
  {
   "property": "C26",
   "status": "proved",
   "theorems": [
    "C26_impossible_sound",
    "C26_impossible_complete",
    "C26_recorded_when_new"
   ],
   "note": ""
  },
  {
   "property": "C27",
   "status": "proved",
   "theorems": [
    "C27_checker_terminates",
    "C27_announced_deadlock_is_real"
   ],
   "note": "The node list (silent local states picked from the decision diagram) is the model's input."
  },
  {
   "property": "C28",
   "status": "partial",
   "theorems": [
    "C28_no_deadlock_claim_refuted",
    "C28_mixed_ring_missed_refuted",
    "C28_no_deadlock_claim_partial",
    "C28_deadlock_free_is_announced"
   ],
   "note": "False as stated: C28_no_deadlock_claim_refuted and C28_mixed_ring_missed_refuted. Proved when no illegitimate silent local state can directly follow another; and the converse direction in full."
  },
  {
   "property": "C29",
   "status": "proved",
   "theorems": [
    "C29_forward_exact",
    "C29_backward_exact",
    "C29_undirected_exact",
    "C29_transitive_closure_exact"
   ],
   "note": "BDD operations on state sets are modelled by their meaning (boolean functions over a finite universe)."
  },
  {
   "property": "C30",
   "status": "proved",
   "theorems": [
    "C30_closure_within_greatest"
   ],
   "note": ""
  },
  {
   "property": "C31",
   "status": "proved",
   "theorems": [
    "C31_cycle_check_exact",
    "C31_closed",
    "C31_whole_state_space"
   ],
   "note": ""
  },
  {
   "property": "C32",
   "status": "proved",
   "theorems": [
    "C32_terminates_when_cycles_inside",
    "C32_always_terminates_refuted",
    "C32_answer_within_refuted"
   ],
   "note": "The unconditional claims are false: C32_always_terminates_refuted and C32_answer_within_refuted."
  },
  {
   "property": "C33",
   "status": "proved",
   "theorems": [
    "C33_layers_exact"
   ],
   "note": ""
  },
  {
   "property": "C34",
   "status": "proved",
   "theorems": [
    "C34_weak_convergence_exact",
    "C34_weak_convergence_limit",
    "C34_whole_state_space"
   ],
   "note": ""
  },
  {
   "property": "C35",
   "status": "proved",
   "theorems": [
    "C35_always_answers",
    "C35_accepted_stabilises",
    "C35_accepted_candidates",
    "C35_accepts_exactly"
   ],
   "note": "Transition and state formulas are modelled by their meaning over a finite state space. The uniring option and messages are not modelled. C35_accepted_candidates covers the use during synthesis with different lower and upper relations."
  },
  {
   "property": "C36",
   "status": "proved",
   "theorems": [
    "C36_rejection_witness",
    "C36_livelock_witness",
    "C36_livelock_closed_invariant",
    "C36_livelock_is_a_livelock_refuted"
   ],
   "note": "For a non-closed invariant the livelock message may be given although no execution leaves the invariant twice (C36_livelock_is_a_livelock_refuted); what it does mean is C36_livelock_witness."
  },
  {
   "property": "C37",
   "status": "proved",
   "theorems": [
    "C37_operations_pointwise",
    "C37_checks_exact",
    "C37_representation_independent"
   ],
   "note": "The decision diagrams underneath (glu MDD) are modelled by their meaning."
  },
  {
   "property": "C38",
   "status": "partial",
   "theorems": [
    "C38_image_exact_partial",
    "C38_constant_true_relation_refuted"
   ],
   "note": "False as stated: C38_constant_true_relation_refuted (empty set with a context, constant-true relation). Exact otherwise."
  },
  {
   "property": "C39",
   "status": "proved",
   "theorems": [
    "C39_decode",
    "C39_encode",
    "C39_total",
    "C39_guard_number",
    "C39_assignment_number"
   ],
   "note": "Networks are lists of kinds of process with arbitrary accesses (read, write, yield, effect, random; direct, shadow, puppet) and domains."
  },
  {
   "property": "C40",
   "status": "proved",
   "theorems": [
    "C40_representative",
    "C40_classes",
    "C40_represented",
    "C40_declared_processes",
    "C40_unordered_links_refuted"
   ],
   "note": "For the layouts the protocol-file parser builds (C40_declared_processes). C40_unordered_links_refuted: with links added in another order through the C++ API, renamings can keep different representatives."
  },
  {
   "property": "C41",
   "status": "proved",
   "theorems": [
    "C41_rank_exact",
    "C41_ranking_unique",
    "C41_revise_exact",
    "C41_revise_is_rank",
    "C41_revise_stops_refuted"
   ],
   "note": "C41_revise_stops_refuted: if a deadlock is left that nothing resolves, the incremental revision may stop the program with a failed check (the flag that enables it is off by default)."
  },
  {
   "property": "C42",
   "status": "proved",
   "theorems": [
    "C42_states_exact",
    "C42_actions_exact"
   ],
   "note": "Fuel above the number of states is always enough (part of the statements)."
  },
  {
   "property": "C43",
   "status": "proved",
   "theorems": [
    "C43_accepted_pair",
    "C43_process",
    "C43_exact",
    "C43_chains",
    "C43_trimming",
    "C43_trimming_exact"
   ],
   "note": "Random accesses excluded by hypothesis. The safety test used without forced disabling is a parameter (any function)."
  },
  {
   "property": "C44",
   "status": "proved",
   "theorems": [
    "C44_found_passed_the_check",
    "C44_order_found_passed_the_check",
    "C44_found_stabilises",
    "C44_instances_agree",
    "C44_order_poisons_conflicts_refuted",
    "C44_order_reads_no_candidate_refuted",
    "C44_forced_actions_clash_refuted"
   ],
   "note": "Holds for randomised, shadow and synchronous systems as well; C44_found_stabilises spells the check out for plain instances (see C54, C55 for the check itself). Refuted beside it: the try-order variant can poison the conflict family and can read a candidate that is not there; forced actions are not tested for coexistence."
  },
  {
   "property": "C45",
   "status": "proved",
   "theorems": [
    "C45_sanitise_exact",
    "C45_in_range_before_event"
   ],
   "note": "Values are unbounded naturals instead of bytes; sockets, timers and logging are not modelled."
  },
  {
   "property": "C46",
   "status": "proved",
   "theorems": [
    "C46_stale_packet_harmless"
   ],
   "note": ""
  },
  {
   "property": "C47",
   "status": "proved",
   "theorems": [
    "C47_acts_with_permission",
    "C47_timeout_never_acts",
    "C47_only_actions_change_own_variables"
   ],
   "note": ""
  },
  {
   "property": "C48",
   "status": "proved",
   "theorems": [
    "C48_enable_marker",
    "C48_no_reserved_marker",
    "C48_stale_packet_refuted"
   ],
   "note": "The text's first form (after every receive) is false for a corrupted process: C48_stale_packet_refuted."
  },
  {
   "property": "C49",
   "status": "proved",
   "theorems": [
    "C49_round_trip",
    "C49_wire_format"
   ],
   "note": ""
  },
  {
   "property": "C50",
   "status": "proved",
   "theorems": [
    "C50_step_bijective",
    "C50_full_period",
    "C50_seeds",
    "C50_process_60_refuted",
    "C50_draws_differ"
   ],
   "note": "C50_process_60_refuted: process 60 is seeded with 0 and draws the same word forever. Only the build without UseRandomDevice."
  },
  {
   "property": "C51",
   "status": "proved",
   "theorems": [
    "C51_strong_steps_exact",
    "C51_weak_steps_exact"
   ],
   "note": ""
  },
  {
   "property": "C52",
   "status": "proved",
   "theorems": [
    "C52_accepted_randomised",
    "C52_livelock_randomised",
    "C52_accepts_exactly"
   ],
   "note": "Probability is modelled qualitatively: every transition of the scheduled process has positive probability."
  },
  {
   "property": "C53",
   "status": "proved",
   "theorems": [
    "C53_shadow_refinement"
   ],
   "note": ""
  },
  {
   "property": "C54",
   "status": "partial",
   "theorems": [
    "C54_returned_states_simulate_refuted",
    "C54_silent_style_refuted",
    "C54_silent_style_with_puppets"
   ],
   "note": "False as documented: C54_returned_states_simulate_refuted and C54_silent_style_refuted. Proved: the core of C53 obeys the style, and future & silent does end all executions when there are puppet variables."
  },
  {
   "property": "C55",
   "status": "proved",
   "theorems": [
    "C55_finds_every_block_within_the_limit",
    "C55_not_found_bounds_the_block",
    "C55_yes_iff_block_within_the_limit",
    "C55_livelock_iff_block",
    "C55_every_livelock_is_found"
   ],
   "note": ""
  },
  {
   "property": "C56",
   "status": "proved",
   "theorems": [
    "C56_variable_comparisons",
    "C56_assignment_between_equal_domains"
   ],
   "note": ""
  },
  {
   "property": "C57",
   "status": "proved",
   "theorems": [
    "C57_state_of_least",
    "C57_pick_pre_single_state",
    "C57_pick_pre_of_nothing_refuted",
    "C57_of_state_exact"
   ],
   "note": "C57_pick_pre_of_nothing_refuted: picking from an unsatisfiable formula with a context does not give the empty set."
  },
  {
   "property": "C58",
   "status": "proved",
   "theorems": [
    "C58_relation_algebra",
    "C58_quantification",
    "C58_renaming",
    "C58_renaming_copies"
   ],
   "note": ""
  },
  {
   "property": "C59",
   "status": "partial",
   "theorems": [
    "C59_global_relation",
    "C59_preimage_exact",
    "C59_image_exact_partial",
    "C59_image_of_everything_contains",
    "C59_image_of_everything_refuted",
    "C59_mask_exact",
    "C59_self_disable_exact"
   ],
   "note": "The image of the constant-true set forgets the variables that are not written: C59_image_of_everything_refuted (it contains the real image: C59_image_of_everything_contains). Exact for all other sets, and all pre-images."
  },
  {
   "property": "C60",
   "status": "proved",
   "theorems": [
    "C60_regular_reads"
   ],
   "note": "Well-formedness of the generated tables is a hypothesis (met by the shipped example); a process keeps one copy of each variable it reads. Fresh ids: the 16-bit counter with a 16-bit random key is assumed not to collide with a packet under way."
  },
  {
   "property": "C61",
   "status": "partial",
   "theorems": [
    "C61_atomic_refuted",
    "C61_one_way_ring_refuted"
   ],
   "note": "False: C61_atomic_refuted (the shipped three-colour ring, reliable in-order delivery) and C61_one_way_ring_refuted. What does hold is C60."
  },
  {
   "property": "C62",
   "status": "proved",
   "theorems": [
    "C62_three_instances_refuted",
    "C62_not_found_means_none",
    "C62_failed_start_means_none",
    "C62_two_specified_moves_refuted"
   ],
   "note": "Both answers 'no solution' (failed first revision, exhausted search) are covered, for one or two instances that meet the record searchable. The two conditions that matter are shown to be needed: C62_three_instances_refuted, C62_two_specified_moves_refuted."
  },
  {
   "property": "C63",
   "status": "proved",
   "theorems": [
    "C63_blamed_actions_livelock",
    "C63_blame_ends"
   ],
   "note": "For each set of states handed over by cycle_ck (every state has a predecessor and a successor in it)."
  },
  {
   "property": "C64",
   "status": "proved",
   "theorems": [
    "C64_move_exact",
    "C64_sound",
    "C64_complete",
    "C64_disables_itself",
    "C64_lightweight_exact",
    "C64_modes_agree",
    "C64_union_cached",
    "C64_union_lightweight",
    "C64_union_lightweight_refuted",
    "C64_modes_agree_refuted"
   ],
   "note": "C64_modes_agree_refuted and C64_union_lightweight_refuted show where stored and on-demand formulas part."
  },
  {
   "property": "C65",
   "status": "proved",
   "theorems": [
    "C65_exact",
    "C65_sound",
    "C65_listed",
    "C65_disjoint",
    "C65_answer",
    "C65_allowed_by_constraints",
    "C65_forbidden_refuted"
   ],
   "note": "C65_exact for systems without shadow variables, C65_sound for all. C65_forbidden_refuted: an action stays a candidate, with its forbidden moves, if one of its symmetric variants has a move that is not forbidden."
  },
  {
   "property": "C66",
   "status": "proved",
   "theorems": [
    "C66_process",
    "C66_system",
    "C66_complete",
    "C66_sound",
    "C66_links_refuted"
   ],
   "note": "For kinds of process that see all their variables and assign none at random. C66_links_refuted: the given actions are replaced by representatives of their class, so a protocol that tells interchangeable links apart gains transitions."
  },
  {
   "property": "C67",
   "status": "proved",
   "theorems": [
    "C67_variable",
    "C67_constant",
    "C67_negate",
    "C67_operator",
    "C67_compare",
    "C67_assign",
    "C67_range_operator"
   ],
   "note": "Integers without overflow. Tables of variables and literals, not the ranges that quantifiers use."
  },
  {
   "property": "C68",
   "status": "proved",
   "theorems": [
    "C68_predicate",
    "C68_integer",
    "C68_accepted",
    "C68_access",
    "C68_rebinding_refuted",
    "C68_guarded_refuted",
    "C68_let_refuted",
    "C68_access_refuted"
   ],
   "note": "Scope'd lets (only used while links are declared) are not modelled. C68_rebinding_refuted, C68_guarded_refuted, C68_let_refuted, C68_access_refuted: findings 26-29."
  },
  {
   "property": "C69",
   "status": "proved",
   "theorems": [
    "C69_command",
    "C69_plain",
    "C69_writes",
    "C69_accepted",
    "C69_added",
    "C69_marked",
    "C69_no_self_loops",
    "C69_self_disabling",
    "C69_any_first_refuted",
    "C69_written_twice_refuted",
    "C69_rotation_refuted",
    "C69_between_cycles_refuted"
   ],
   "note": "For processes that write each of their variables through one access and actions in which '_ := _' comes last; both conditions are shown to be needed (C69_written_twice_refuted, C69_any_first_refuted). C69_rotation_refuted, C69_between_cycles_refuted: what -=> removes beyond self-loops (findings 30-33)."
  },
  {
   "property": "C70",
   "status": "proved",
   "theorems": [
    "C70_exact",
    "C70_refused",
    "C70_some",
    "C70_same_rest"
   ],
   "note": "The actions are given by representatives of their classes, as everywhere in the program."
  },
  {
   "property": "C71",
   "status": "proved",
   "theorems": [
    "C71_reads_back",
    "C71_action",
    "C71_assumptions",
    "C71_invariants",
    "C71_every_meaning",
    "C71_equality_refuted",
    "C71_invariants_refuted"
   ],
   "note": "On token lists. iffs_apart and weaker_than_and are the conditions under which it is true; C71_equality_refuted and C71_invariants_refuted show that they are needed (findings 34, 35)."
  },
  {
   "property": "C72",
   "status": "proved",
   "theorems": [
    "C72_accessed",
    "C72_expands",
    "C72_kind",
    "C72_text",
    "C72_names",
    "C72_circular_refuted",
    "C72_names_refuted"
   ],
   "note": "For declarations of integer arithmetic (names, numbers, operators, parentheses, array members) in which the names of a block are new, different and not mentioned in its values. C72_circular_refuted and C72_names_refuted: findings 36, 37."
  },
  {
   "property": "C73",
   "status": "proved",
   "theorems": [
    "C73_action",
    "C73_moves",
    "C73_solution",
    "C73_system",
    "C73_same",
    "C73_blind_refuted"
   ],
   "note": "Text without espresso. The conditions on declarations are those of C72; C73_blind_refuted shows that the process must see something (finding 38)."
  },
  {
   "property": "C74",
   "status": "proved",
   "theorems": [
    "C74_cycle_check_answers",
    "C74_reported_cycles_exist",
    "C74_ring_exact",
    "C74_ring_verdict",
    "C74_deterministic_goes_on",
    "C74_layers_count_rounds",
    "C74_weak_check_sees_deadlocks_only",
    "C74_turned_ring_refuted",
    "C74_not_self_disabling_refuted",
    "C74_choice_refuted",
    "C74_weak_check_accepts_refuted",
    "C74_weak_check_rejects_refuted",
    "C74_weak_check_never_ends_refuted"
   ],
   "note": "Exactness is for rings listed in the direction of the values whose processes cannot act twice in a row; the refuted theorems show that both conditions are needed and what the reachability check does instead (findings 39-41). C74_layers_count_rounds: rounds start at the states of the unmasked image (C59)."
  },
  {
   "property": "C75",
   "status": "proved",
   "theorems": [
    "C75_search_ends",
    "C75_small_domains_refuted",
    "C75_printed_is_printable",
    "C75_printed_exactly",
    "C75_default_depth_is_no_limit",
    "C75_guided_check_loses_a_protocol_refuted",
    "C75_printed_up_to_renaming_refuted",
    "C75_given_actions",
    "C75_split_runs"
   ],
   "note": "The variant -bdd is not modelled. The refuted theorems show the three places where the generator does not do this (findings 42-44); the lost protocol of finding 43 is a renaming of a printed one."
  },
  {
   "property": "C76",
   "status": "proved",
   "theorems": [
    "C76_printed_is_hard",
    "C76_every_hard_livelock_is_covered",
    "C76_empty_output_is_complete",
    "C76_limit_decides",
    "C76_three_values_decided",
    "C76_four_values_decided",
    "C76_four_values_limit_is_tight",
    "C76_default_limit_decides"
   ],
   "note": "C76_four_values_decided computes the whole search for four values in the kernel (about 40 s)."
  },
  {
   "property": "C77",
   "status": "proved",
   "theorems": [
    "C77_channels",
    "C77_ends_agree",
    "C77_copies_fed",
    "C77_sizes",
    "C77_runtime",
    "C77_regular_reads",
    "C77_two_writers_refuted",
    "C77_seen_twice_refuted",
    "C77_absent_kind_refuted"
   ],
   "note": "The refuted theorems show why one writer per variable, no variable seen twice and no absent kinds are needed (findings 45-47). C77_runtime and C77_regular_reads join the generator with the runtime of C60."
  },
  {
   "property": "C78",
   "status": "proved",
   "theorems": [
    "C78_generated",
    "C78_actions_exact",
    "C78_actions_of_process",
    "C78_assume_fixes",
    "C78_repairable_refuted"
   ],
   "note": "C78_actions_exact is about the process of the synthesised network the code is made from; C78_actions_of_process about the process itself, for kinds without shadow variables and randomness. C78_repairable_refuted: finding 48."
  },
  {
   "property": "C79",
   "status": "proved",
   "theorems": [
    "C79_results_are_checked",
    "C79_files_are_distinct",
    "C79_flag_freezes_the_result",
    "C79_one_solution_is_enough",
    "C79_no_result_means_none",
    "C79_all_solutions_are_covered",
    "C79_written_conflicts_are_sound",
    "C79_counted_solutions_are_new",
    "C79_trimmed_solution_counted_again_refuted"
   ],
   "note": "The steps of a thread are those between which other threads and the flag can be noticed; the default search method, no guesses, no layer optimisation. Completeness is for one or two instances (three: C62_three_instances_refuted)."
  },
  {
   "property": "C80",
   "status": "proved",
   "theorems": [
    "C80_minimised_conflicts_are_sound",
    "C80_orders_by_size"
   ],
   "note": "The conflicts consist of actions that after the start are chosen or still candidates."
  },
  {
   "property": "C81",
   "status": "proved",
   "theorems": [
    "C81_best_process_writes",
    "C81_no_layers_hides_solutions_refuted",
    "C81_at_most_one_writes",
    "C81_several_files",
    "C81_bad_file_hidden_refuted"
   ],
   "note": "MPI_Allreduce as maximum and minimum over all processes; the refuted theorems are findings 50 and 51."
  },
  {
   "property": "C82",
   "status": "proved",
   "theorems": [
    "C82_options_exact",
    "C82_line_leads_there",
    "C82_any_text_keeps_domains",
    "C82_assignments",
    "C82_state_lines_refuted"
   ],
   "note": "next_options_spec by induction on the number of states left; C82_state_lines_refuted is finding 52."
  },
  {
   "property": "C83",
   "status": "proved",
   "theorems": [
    "C83_sessions",
    "C83_every_option_possible",
    "C83_cycle_may_not_end_refuted",
    "C83_start_refuted"
   ],
   "note": "An invariant over all command histories: the mask means the predicate commands given so far, cached predicates are right and present when used. The two refuted theorems are findings 53 and 54. The commands topo and show-all-xn, and the reading of command names, are not modelled."
  },
  {
   "property": "C84",
   "status": "proved",
   "theorems": [
    "C84_every_state_possible",
    "C84_sstep_does_all",
    "C84_sstep_leaves_refuted"
   ],
   "note": "C83_sessions gives the specification of randomize and sstep inside any session; these theorems add that every state is possible and when sstep is exact. C84_sstep_leaves_refuted is finding 55."
  },
  {
   "property": "C85",
   "status": "proved",
   "theorems": [
    "C85_classification_is_exact",
    "C85_silent_is_livelock_free",
    "C85_livelock_is_real",
    "C85_verdict_is_stable",
    "C85_every_livelock_is_classified",
    "C85_methods_agree",
    "C85_nobdd_minimum_refuted"
   ],
   "note": "The chain formula over x0..xmax is shown to mean a step of all columns at once, so its cycles are the strips and blocks; cycle_ck is the fixpoint of C59/C60. C85_nobdd_minimum_refuted is finding 56."
  },
  {
   "property": "C86",
   "status": "proved",
   "theorems": [
    "C86_actions_are_in_the_domain",
    "C86_actions_disable_themselves",
    "C86_constraint_check_is_exact",
    "C86_check_constraints_meaning",
    "C86_action_tiles_tile_what_the_wang_tiles_do",
    "C86_commutative_tiles_tile_what_the_wang_tiles_do",
    "C86_livelock_iff_periodic_tiling",
    "C86_stored_protocol_is_the_reduction",
    "C86_reserved_colour_refuted"
   ],
   "note": "The id map is shown injective and the grid of ids is read as a grid of symbols; the 2x2 (3x3 for the commutative one, in either of two orientations) pattern is forced by case analysis from any one cell. C86_reserved_colour_refuted is finding 57. That the 16 stored tiles are aperiodic is a theorem of the literature and is not proved here."
  },
  {
   "property": "C87",
   "status": "proved",
   "theorems": [
    "C87_prot_file",
    "C87_prot_livelock",
    "C87_list",
    "C87_list_rest",
    "C87_from_list",
    "C87_from_id",
    "C87_refused",
    "C87_nondeterministic_refuted",
    "C87_domsz_refuted",
    "C87_bad_list_refused"
   ],
   "note": "The text is a list of tokens read by the modelled reader of accesses (C72) and actions (C69), so the theorem joins the ring tools to the main tool. The declarations of constants, variables and of the process head are read in outline. C87_nondeterministic_refuted and C87_domsz_refuted are findings 58 and 59."
  },
  {
   "property": "C88",
   "status": "proved",
   "theorems": [
    "C88_written",
    "C88_steps_exact",
    "C88_safe",
    "C88_initial",
    "C88_mod_index_refuted",
    "C88_idle_kind_refuted",
    "C88_shadow_refuted"
   ],
   "note": "The model is text for references (tokens of the index expressions, constants and lets as macros) and structure for the rest; SPIN's reading of it (macro substitution in parentheses, C arithmetic, bounds of arrays, numbering of processes after init) is the part of PmlModel that is about SPIN, not about the code. C88_mod_index_refuted, C88_idle_kind_refuted and C88_shadow_refuted are findings 60 to 62."
  },
  {
   "property": "C89",
   "status": "proved",
   "theorems": [
    "C89_always_a_candidate",
    "C89_fewest_choices_first",
    "C89_smallest_set",
    "C89_reach_adds_a_path",
    "C89_nicest_process",
    "C89_greedy",
    "C89_least_remaining",
    "C89_conflict",
    "C89_quick",
    "C89_lowest_number",
    "C89_every_one_can_be_drawn",
    "C89_random_twins",
    "C89_found_passed_the_check",
    "C89_not_found_means_none"
   ],
   "note": "C89_found_passed_the_check and C89_not_found_means_none are C44 and C62 without their hypotheses on the choice of actions: the modelled choice meets them at every level the search reaches. The preferences of the single methods are stated for one instance, without -pick-reach and niceness. Left out: the methods that no option selects (GreedySlowPick, LCVHeavyPick, LCVJankPick); niceness is modelled as any function, though no option sets its policy."
  },
  {
   "property": "C90",
   "status": "proved",
   "theorems": [
    "C90_assumed",
    "C90_legitimate",
    "C90_steps",
    "C90_processes",
    "C90_accepted",
    "C90_one_mode",
    "C90_predicate_refuted"
   ],
   "note": "C90_predicate_refuted: the hypothesis that no process names a predicate as one outside is named is needed. The declarations (constants, variables, the processes and their accesses) are given to the theorem as they stand after reading; the actions are those of C69. Left out: featherweight reading, which does not evaluate."
  },
  {
   "property": "C91",
   "status": "proved",
   "theorems": [
    "C91_accepts",
    "C91_pairs",
    "C91_written",
    "C91_program",
    "C91_domain_refuted",
    "C91_first_process_refuted",
    "C91_direction_refuted",
    "C91_range_refuted"
   ],
   "note": "Reading is C90, the generator C16-C18, the text C87. The hypotheses are needed: C91_first_process_refuted (processes with different invariants), C91_direction_refuted (a ring in the other direction), C91_range_refuted (two arrays). C91_domain_refuted: the written domain can be smaller than that of the input, 0 if there are no actions; the theorem speaks of the written one."
  },
  {
   "property": "C92",
   "status": "proved",
   "theorems": [
    "C92_constants",
    "C92_variables",
    "C92_kinds",
    "C92_file",
    "C92_meaning",
    "C92_twice_refuted",
    "C92_again_refuted"
   ],
   "note": "C92_file discharges the hypotheses of C90 for files as they are read; C92_meaning puts the two together. The names must have one meaning each, and no process may write a variable twice over (writes_once). C92_twice_refuted and C92_again_refuted: what a second declaration of a name does."
  },
  {
   "property": "C93",
   "status": "proved",
   "theorems": [
    "C93_listed",
    "C93_nobody",
    "C93_number",
    "C93_no_effect",
    "C93_pushed",
    "C93_heeded_refuted",
    "C93_possible_refuted",
    "C93_action_refuted"
   ],
   "note": "C93_listed needs an action that can happen; C93_possible_refuted shows what is noted for one that cannot. C93_no_effect is about every accepted file: push_conflict_action is never called, so a list is read and dropped (C93_heeded_refuted); C93_pushed says what it would do. C93_action_refuted: with an effect variable the values noted are no action."
  },
  {
   "property": "C94",
   "status": "proved",
   "theorems": [
    "C94_instances",
    "C94_accepted",
    "C94_seen",
    "C94_file",
    "C94_first",
    "C94_unknown",
    "C94_written",
    "C94_written_refuted"
   ],
   "note": "Instances are found once each if no value is repeated (no_repeats); otherwise each still is one of the combinations and their number is the product. The cutting of the command line into words and of a value into numbers is not modelled. C94_written_refuted: the text of a constant is not cut with its numbers."
  },
  {
   "property": "C95",
   "status": "proved",
   "theorems": [
    "C95_shape",
    "C95_compare",
    "C95_accepted",
    "C95_same_actions",
    "C95_line",
    "C95_needed_refuted"
   ],
   "note": "init_systems is the part of stabilization_search_init that reads and compares; the rest of that function can only refuse more. C95_line joins it with the command line of C94. C95_needed_refuted: the comparison also refuses a change that leaves all numbers as they are."
  },
  {
   "property": "C96",
   "status": "proved",
   "theorems": [
    "C96_table",
    "C96_line",
    "C96_solution",
    "C96_stops",
    "C96_choice_refuted",
    "C96_unseen_refuted",
    "C96_left_alone_refuted",
    "C96_random_refuted"
   ],
   "note": "espresso itself is not modelled: its answer is any list of lines that match the same values as the lines written, without empty fields (same_table). C96_stops says when a line can be written. The refutations show what goes wrong for two actions with one guard, for variables that are written but not seen, for shadow variables left alone and for random writes."
  },
  {
   "property": "C97",
   "status": "proved",
   "theorems": [
    "C97_accepted",
    "C97_claims",
    "C97_plain",
    "C97_about",
    "C97_featherweight",
    "C97_message_refuted",
    "C97_invariant_refuted"
   ],
   "note": "Parts of the function under 'if (false)' are left out. C97_accepted and C97_claims are exact; C97_plain and C97_about give the usual cases. The refutations show that two of the messages do not come where they should."
  },
  {
   "property": "C98",
   "status": "proved",
   "theorems": [
    "C98_read",
    "C98_one_meaning",
    "C98_written",
    "C98_blanks",
    "C98_option",
    "C98_option_exact",
    "C98_written_refuted",
    "C98_option_refuted",
    "C98_order_refuted",
    "C98_last_line"
   ],
   "note": "At the level of characters. C98_read is exact: the ordered choice of the grammar reads a text as a style iff it starts with a way to write it (StyleSpec: phrases). Only the start of the statement is modelled, up to the parenthesis before the expression. The refutations name the styles that cannot be read back or given as an option."
  },
  {
   "property": "C99",
   "status": "proved",
   "theorems": [
    "C99_arrows",
    "C99_one_line",
    "C99_nodes",
    "C99_told",
    "C99_told_refuted"
   ],
   "note": "The lines are modelled, not the labels and the layout. C99_told_refuted: an arrow also goes to a process that only writes the variable (finding 86)."
  },
  {
   "property": "C100",
   "status": "proved",
   "theorems": [
    "C100_accepted",
    "C100_subset",
    "C100_from_guess",
    "C100_tested",
    "C100_yes",
    "C100_part_refuted",
    "C100_order_refuted",
    "C100_interrupted_refuted"
   ],
   "note": "On top of the model of C44. C100_yes joins the trials and the threads; without interruption, because an interrupted test says yes with suggestions untested (C100_interrupted_refuted, finding 88). That a suggestion with a solution in it is accepted is false for -x-try-subset (C100_part_refuted, C100_order_refuted, finding 87)."
  },
  {
   "property": "C101",
   "status": "proved",
   "theorems": [
    "C101_fixpoint",
    "C101_same_states",
    "C101_sizes",
    "C101_large",
    "C101_view",
    "C101_cut_first",
    "C101_propagation",
    "C101_example"
   ],
   "note": "A legitimate state of a ring of n processes is a closed walk of n steps among the views. The iterates of the image are shown to be the nodes at each distance; that the check is complete uses a ring whose size is 1 modulo the factorial of the number of views. The bound on the number of passes is shown to suffice."
  },
  {
   "property": "C102",
   "status": "proved",
   "theorems": [
    "C102_canonical",
    "C102_form",
    "C102_subgraph",
    "C102_printed",
    "C102_complete",
    "C102_example",
    "C102_complete_pair",
    "C102_printed_pair",
    "C102_pair_example"
   ],
   "note": "The order of bit tables belongs to an outside library and is a parameter of the theorems. That the search misses nothing although it turns back at classes it has met: a set cut off in this way has a renaming with a smaller number as a table. With the option of pairs the number is that of the table of pairs, and a set is given by pairs if a view is in it exactly when its first two and its last two values are among the pairs."
  },
  {
   "property": "C103",
   "status": "proved",
   "theorems": [
    "C103_match",
    "C103_match_sizes",
    "C103_known_refuted",
    "C103_known",
    "C103_invariant",
    "C103_guard",
    "C103_subsets",
    "C103_known_match",
    "C103_example",
    "C103_pair_states",
    "C103_pair_states_refuted"
   ],
   "note": "Printed terms are lists of comparisons, not characters. The tests for known sets need three values; C103_known_refuted shows the access outside of the table with two. The list of fourteen sets of subck_next10 is not modelled. C103_pair_states: for sets given by pairs the shorter printed invariant allows the same states; C103_pair_states_refuted: for others it may allow more."
  },
  {
   "property": "C104",
   "status": "proved",
   "theorems": [
    "C104_arrows",
    "C104_states",
    "C104_pair_arrows",
    "C104_pair_states",
    "C104_example"
   ],
   "note": "Nodes and arrows are lists of pairs, not characters; labels and layout hints are not modelled. A node is printed once for each of its views, which the reader of the picture takes as one node."
  }
 ]
}