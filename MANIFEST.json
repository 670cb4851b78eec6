{
 "claims": [
  {
   "property": "C01",
   "status": "proved",
   "theorems": [
    "C01_property_bits_sound",
    "C01_no_contradiction",
    "C01_set_trs_refuted"
   ],
   "note": "All 32 bits, every history of covered calls, every left semiring; the set_trs_unchecked exception is shown by a witness."
  },
  {
   "property": "C02",
   "status": "proved",
   "theorems": [
    "C02_counters_exact",
    "C02_no_underflow"
   ],
   "note": "All calls including the raw per-state ones; a panic implies out-of-range arguments."
  },
  {
   "property": "C03",
   "status": "proved",
   "theorems": [
    "C03_del_states_exact",
    "C03_del_states_panics",
    "C03_del_state"
   ],
   "note": ""
  },
  {
   "property": "C04",
   "status": "proved",
   "theorems": [
    "C04_connect",
    "C04_connect_idempotent",
    "C04_bits_sound"
   ],
   "note": "connect built on the modelled DFS and connect visitor; any closed machine"
  },
  {
   "property": "C05",
   "status": "proved",
   "theorems": [
    "C05_reverse",
    "C05_reverse_no_start"
   ],
   "note": "weights whose reverse lands in a left semiring"
  },
  {
   "property": "C06",
   "status": "proved",
   "theorems": [
    "C06_union",
    "C06_union_right_empty",
    "C06_union_left_empty",
    "C06_union_no_start_refuted"
   ],
   "note": "sum of relations, with the exact number of extra epsilon steps; the start shift bug is the _refuted theorem"
  },
  {
   "property": "C07",
   "status": "proved",
   "theorems": [
    "C07_concat"
   ],
   "note": "exact Cauchy product, per path length"
  },
  {
   "property": "C08",
   "status": "proved",
   "theorems": [
    "C08_closure_plus",
    "C08_closure_star"
   ],
   "note": "exact powers, per path length"
  },
  {
   "property": "C09",
   "status": "proved",
   "theorems": [
    "C09_invert",
    "C09_invert_involutive",
    "C09_project",
    "C09_bits_sound"
   ],
   "note": "Machines built by any history of mutating calls; symbol tables are not swapped or copied by the code and the theorems say so."
  },
  {
   "property": "C10",
   "status": "proved",
   "theorems": [
    "C10_tr_sort",
    "C10_bits_sound"
   ],
   "note": "Any machine; the relation, counters, stability and all bits."
  },
  {
   "property": "C11",
   "status": "proved",
   "theorems": [
    "C11_tr_sum"
   ],
   "note": "Any machine built by a history of calls, right and left distributive semiring."
  },
  {
   "property": "C12",
   "status": "proved",
   "theorems": [
    "C12_tr_unique",
    "C12_duplicate_free_refuted"
   ],
   "note": "Same transition set; same relation for idempotent plus; duplicate-freeness is false in general (witness)."
  },
  {
   "property": "C13",
   "status": "proved",
   "theorems": [
    "C13_state_sort",
    "C13_state_sort_refuses",
    "C13_top_sort_acyclic",
    "C13_top_sort_cyclic",
    "C13_top_sort_no_start"
   ],
   "note": "every permutation; top_sort on a non-empty machine without start is an error"
  },
  {
   "property": "C14",
   "status": "proved",
   "theorems": [
    "C14_add_super_final_state",
    "C14_rm_final_epsilon",
    "C14_rm_final_epsilon_cancel_refuted",
    "C14_rm_final_epsilon_local"
   ],
   "note": "rm_final_epsilon for commutative zero-sum-free weights; the cancelling-weights case is the _refuted theorem"
  },
  {
   "property": "C15",
   "status": "proved",
   "theorems": [
    "C15_relabel_pairs",
    "C15_duplicate_key_is_error",
    "C15_inverse"
   ],
   "note": "Hash maps as association lists with unique keys."
  },
  {
   "property": "C16",
   "status": "proved",
   "theorems": [
    "C16_any_queue",
    "C16_any_queue_stops",
    "C16_library_queues",
    "C16_shortest_distance",
    "C16_shortest_distance_stops",
    "C16_bounded",
    "C16_reverse",
    "C16_reverse_stops",
    "C16_growth",
    "C16_self_loop_refuted",
    "C16_reverse_left",
    "C16_reverse_left_stops"
   ],
   "note": "The main loop with retained and fresh vectors, any queue meeting an abstract discipline, AutoQueue, forward and reversed. approx_equal is exact equality (no KDELTA), weights exact. The enqueued[state] bug is refuted by a witness; theorems assume self-loops w with 1+w=1 and idempotent plus or acyclicity."
  },
  {
   "property": "C17",
   "status": "proved",
   "theorems": [
    "C17_path_equation",
    "C17_acyclic",
    "C17_idempotent",
    "C17_tropical_refuted"
   ],
   "note": "Gauss-Jordan elimination proved to solve both path equations under the star law; sums over all paths for acyclic machines and for idempotent semirings; the tropical closure is shown to give wrong distances."
  },
  {
   "property": "C18",
   "status": "proved",
   "theorems": [
    "C18_reweight_initial",
    "C18_reweight_final",
    "C18_push_initial",
    "C18_push_final",
    "C18_weights",
    "C18_dead_successor_refuted"
   ],
   "note": "reweight and push_weights with division as a parameter; exact weights. C18_dead_successor_refuted: normalisation fails when a successor cannot reach a final state. Label pushing (push with PUSH_LABELS) is not part of this entry."
  },
  {
   "property": "C19",
   "status": "proved",
   "theorems": [
    "C19_compose",
    "C19_span",
    "C19_compose_null",
    "C19_compose_trivial",
    "C19_trivial_once_refuted"
   ],
   "note": "sequence, alternate sequence and match filters, commutative weights; the composed weight over paths of k transitions is the sum over matching pairs whose composed path has k transitions, so each pair counts exactly once. Lookahead and sigma composition are not modelled. The refuted theorem shows the multiplicity of the trivial and no-match filters."
  },
  {
   "property": "C20",
   "status": "proved",
   "theorems": [
    "C20_sorted_matcher",
    "C20_match_type",
    "C20_sigma_matcher",
    "C20_sigma_matcher_epsilon",
    "C20_multi_eps_loop",
    "C20_multi_eps_other",
    "C20_multi_eps_list",
    "C20_sigma_shadow_refuted",
    "C20_multi_eps_list_refuted"
   ],
   "note": "superslice lower_bound modelled from its published algorithm"
  },
  {
   "property": "C21",
   "status": "proved",
   "theorems": [
    "C21_answers",
    "C21_compute",
    "C21_compute_terminates",
    "C21_table_history",
    "C21_num_trs_refuted"
   ],
   "note": "all provided caches (vector, hash map, one-entry in front), any query history; operations without state and table-driven ones. num_trs before expansion is an error (refuted witness), as the statement says."
  },
  {
   "property": "C22",
   "status": "proved",
   "theorems": [
    "C22_state_table"
   ],
   "note": "Any type of tuples with decidable equality; every history of find_id calls. Mutex and hash-map order not modelled. The binary form of a state table is C26-style codec work, not covered here."
  },
  {
   "property": "C23",
   "status": "proved",
   "theorems": [
    "C23_roundtrip"
   ],
   "note": "vector FST binary store/load for any weight codec that round-trips; truncation rejected; file system not modelled"
  },
  {
   "property": "C24",
   "status": "proved",
   "theorems": [
    "C24_conversion",
    "C24_roundtrip",
    "C24_to_trs_vec_refuted"
   ],
   "note": "conversion and const-file round trip for fewer than 2^31 transitions; to_trs_vec claim of the list is a bug shown by the refuted theorem; version-1 aligned reading is modelled but only the writer's version 2 is round-tripped"
  },
  {
   "property": "C25",
   "status": "proved",
   "theorems": [
    "C25_roundtrip",
    "C25_same_relation",
    "C25_start_lost_refuted",
    "C25_malformed_line_refuted"
   ],
   "note": "any weight printer that round-trips; exact start condition; malformed rows silently end the file"
  },
  {
   "property": "C26",
   "status": "proved",
   "theorems": [
    "C26_bijection",
    "C26_text_roundtrip",
    "C26_binary_roundtrip",
    "C26_text_space_refuted"
   ],
   "note": "Byte-level model of both formats including UTF-8 validation, casts and truncation. Tables of more than 2^32 symbols out of scope."
  },
  {
   "property": "C27",
   "status": "proved",
   "theorems": [
    "C27_semiring",
    "C27_boolean",
    "C27_integer",
    "C27_tropical",
    "C27_probability",
    "C27_string_left",
    "C27_string_right",
    "C27_string_restrict",
    "C27_product",
    "C27_gallic",
    "C27_divide_tropical",
    "C27_divide_probability",
    "C27_divide_string",
    "C27_divide_product",
    "C27_string_reverse",
    "C27_string_one_sided",
    "C27_gallic_min_refuted",
    "C27_tropical_divide_refuted",
    "C27_probability_reverse_refuted"
   ],
   "note": "exact arithmetic: integers for i32 and for the finite floats of tropical weights, rationals for probabilities; log weights are C69"
  },
  {
   "property": "C28",
   "status": "proved",
   "theorems": [
    "C28_queue",
    "C28_fifo",
    "C28_lifo",
    "C28_scc_order_refuted",
    "C28_trivial_loses_refuted",
    "C28_head_empty_refuted",
    "C28_shortest_first_farthest"
   ],
   "note": "All queue kinds incl. SccQueue, every history of calls; the refuted theorems show the guards are needed and record the real findings."
  },
  {
   "property": "C29",
   "status": "proved",
   "theorems": [
    "C29_partition",
    "C29_progress",
    "C29_finalize",
    "C29_move_marked_refuted"
   ],
   "note": "Doubly linked lists modelled as in the code; i32 overflow of links not modelled. Moving a marked element makes finalize panic (refuted)."
  },
  {
   "property": "C30",
   "status": "proved",
   "theorems": [
    "C30_encode",
    "C30_codes",
    "C30_weights_round_trip",
    "C30_labels_round_trip",
    "C30_no_start",
    "C30_decode_labels",
    "C30_labels_cancel_refuted"
   ],
   "note": "round trip for all three encode types; with weights encoded the relation is kept per path length in every semiring, with labels only it is kept up to the epsilon folding that decode performs (C14); refuted in a ring where sums cancel"
  },
  {
   "property": "C31",
   "status": "proved",
   "theorems": [
    "C31_no_start",
    "C31_tr_map",
    "C31_weight_convert",
    "C31_pure_mapper",
    "C31_pure_converter",
    "C31_identity",
    "C31_plus",
    "C31_times",
    "C31_rm_weight",
    "C31_invert_twice",
    "C31_input_epsilon",
    "C31_output_epsilon",
    "C31_weight_bits",
    "C31_rm_weight_bits",
    "C31_simple_converter",
    "C31_require_zero_refuted",
    "C31_epsilon_bits_refuted",
    "C31_simple_bits_refuted",
    "C31_invert_zero_refuted"
   ],
   "note": "tr_map and weight_convert for every stateful mapper: call order, placement of results, super-final state, errors; library mappers; refuted: zero answer under required super-final state, epsilon mapper bits on empty machines, UNWEIGHTED after conversion, inversion of zero"
  },
  {
   "property": "C32",
   "status": "proved",
   "theorems": [
    "C32_lists",
    "C32_finds_all",
    "C32_ends",
    "C32_acyclic_ends",
    "C32_sums",
    "C32_decode",
    "C32_acceptor",
    "C32_transducer",
    "C32_round_trip",
    "C32_epsilon_machine",
    "C32_decode_accepts_refuted",
    "C32_always_returns_refuted"
   ],
   "note": "paths_iter lists exactly the accepting paths, shortest first, each as often as it occurs, and finds each of them; it terminates when there are finitely many paths. acceptor/transducer/epsilon_machine have one accepting path; decode_linear_fst returns it. Refuted: decode of a machine accepting nothing returns the empty path with weight one; a non-accepting loop makes next run for ever."
  },
  {
   "property": "C33",
   "status": "proved",
   "theorems": [
    "C33_check_path",
    "C33_terminates",
    "C33_panic_refuted",
    "C33_wrong_yes_refuted",
    "C33_no_start_refuted"
   ],
   "note": "correct exactly on machines with no transition having epsilon on one side only; refutations outside"
  },
  {
   "property": "C34",
   "status": "proved",
   "theorems": [
    "C34_normalize",
    "C34_canonical",
    "C34_empty_interval_refuted"
   ],
   "note": "usize overflow not modelled; superslice's lower_bound modelled by its specification on sorted slices."
  },
  {
   "property": "C35",
   "status": "proved",
   "theorems": [
    "C35_sound",
    "C35_equivalent",
    "C35_complete",
    "C35_symmetric_refuted",
    "C35_nondeterministic_refuted"
   ],
   "note": "weight order and approximate equality are parameters"
  },
  {
   "property": "C36",
   "status": "proved",
   "theorems": [
    "C36_dfs_visits_once",
    "C36_scc",
    "C36_scc_access_refuted",
    "C36_scc_no_start_refuted"
   ],
   "note": "any transition filter; the access vector and the no-start case are refuted as the statement says"
  },
  {
   "property": "C37",
   "status": "proved",
   "theorems": [
    "C37_rm_epsilon",
    "C37_rm_epsilon_stops",
    "C37_lazy",
    "C37_zero_weight_refuted",
    "C37_stale_distance_refuted",
    "C37_no_start_refuted"
   ],
   "note": "Sums compared as limits of sums over paths of at most k transitions. Findings: an epsilon transition of weight zero followed by another epsilon makes expand index past the distances (panic) or use a distance from an earlier expansion (wrong weight); a machine without start state is returned with its epsilon transitions."
  },
  {
   "property": "C38",
   "status": "proved",
   "theorems": [
    "C38_determinize",
    "C38_distance",
    "C38_any_order",
    "C38_terminates",
    "C38_size_refuted",
    "C38_start_refuted",
    "C38_left_semiring_refuted"
   ],
   "note": "Determinization of acceptors: for every hash order and every semiring with exact division the result is deterministic and gives every word the same weight; the distance variant returns the distances of the subsets; acyclic machines terminate. Transducers (through the gallic semiring) are not part of this statement."
  },
  {
   "property": "C39",
   "status": "proved",
   "theorems": [
    "C39_factor_weight",
    "C39_transitions_only",
    "C39_totals",
    "C39_terminates",
    "C39_nothing_to_factor",
    "C39_identity",
    "C39_string",
    "C39_gallic",
    "C39_gallic_union",
    "C39_gallic_contract",
    "C39_single_labels",
    "C39_bits_refuted"
   ],
   "note": "For every machine, factor iterator meeting its contract and cache history; path lengths are related exactly. Termination for fading factors without cyclic growth. The ACCEPTOR bit claim is refuted for unequal final labels."
  },
  {
   "property": "C40",
   "status": "proved",
   "theorems": [
    "C40_replace",
    "C40_depth",
    "C40_lazy",
    "C40_no_root",
    "C40_no_calls",
    "C40_terminates",
    "C40_bits_refuted"
   ],
   "note": "Every grammar of machines built through the API (recursive or not), every option and cache; per number of steps the weight of (x, y) is the sum over the expansions. Termination for non-recursive grammars. The I_LABEL_SORTED bit is refuted."
  },
  {
   "property": "C41",
   "status": "proved",
   "theorems": [
    "C41_shortest_path",
    "C41_stops",
    "C41_weight_is_total",
    "C41_hang_refuted"
   ],
   "note": "guards: closed machine, ACYCLIC bit sound, no cycle improves a path; nshortest > 1 is not covered by this claim"
  },
  {
   "property": "C42",
   "status": "proved",
   "theorems": [
    "C42_no_false_positive",
    "C42_contains_is_minimum",
    "C42_contains_refuted"
   ],
   "note": "contains answers yes exactly for the smallest inserted label (insert-only histories) and never for a label that is not live (all histories); exact membership is refuted by a witness."
  },
  {
   "property": "C43",
   "status": "proved",
   "theorems": [
    "C43_compute_fst_properties",
    "C43_compute_and_update",
    "C43_stored",
    "C43_decided",
    "C43_zero_final_refuted",
    "C43_no_start_refuted",
    "C43_no_start_string_refuted"
   ],
   "note": "guards: start state present, closed, no explicit zero final weight; the refuted theorems show each guard is needed"
  },
  {
   "property": "C44",
   "status": "proved",
   "theorems": [
    "C44_extensional",
    "C44_plus",
    "C44_times",
    "C44_laws",
    "C44_divide_left",
    "C44_divide_right",
    "C44_reverse",
    "C44_reverse_times",
    "C44_infinite_refuted",
    "C44_divide_zero_refuted"
   ],
   "note": "GallicWeight on well-formed values is the convolution semiring of weighted strings; division by one string and reversal characterised; the infinite string breaks commutativity."
  },
  {
   "property": "C45",
   "status": "proved",
   "theorems": [
    "C45_acceptor_minimize",
    "C45_minimize",
    "C45_nondeterministic_refuted",
    "C45_unsorted_refuted",
    "C45_zero_weight_refuted"
   ],
   "note": "Unweighted deterministic acceptors, any semiring with 1 <> 0. Minimality needs commutative times and either an acyclic machine or sorted transitions; the three refutations show the limits of the code. The heap's tie order is an arbitrary oracle. Weighted machines and transducers are not covered here."
  },
  {
   "property": "C46",
   "status": "proved",
   "theorems": [
    "C46_minimize_weighted",
    "C46_more_states_refuted",
    "C46_unsorted_refuted"
   ],
   "note": "Weighted deterministic acceptors. Quantization is taken as the identity (f32 rounding is not modelled). Hypotheses on weights are those of C18 (met by min-plus, C18_weights); minimality additionally needs an acyclic machine, commutative cancellative times and nonzero transition weights. Final states must not have epsilon transitions. Refutations: a cyclic start adds a state; unsorted cyclic machines may not be minimal."
  },
  {
   "property": "C47",
   "status": "proved",
   "theorems": [
    "C47_n_shortest",
    "C47_stops",
    "C47_none_or_one",
    "C47_needs_path"
   ],
   "note": "Option unique is C68. approx_equal on weights is taken as equality. Commutative cancellative path weights with rb (rv w) = w and rb 1 = 1 (min-plus meets all; Example). Path comparison is by the natural order x + y = x."
  },
  {
   "property": "C48",
   "status": "proved",
   "theorems": [
    "C48_condense",
    "C48_no_start"
   ],
   "note": "Built on the modelled SCC visitor (C36). A machine with states but no start panics in the code (start().unwrap()), as the second theorem says."
  },
  {
   "property": "C49",
   "status": "proved",
   "theorems": [
    "C49_acyclic",
    "C49_cyclic",
    "C49_state_reachable"
   ],
   "note": "acyclic visitor, cyclic construction through condensation, and the public constructor; counter exhaustion (usize::MAX final states) is not modelled"
  },
  {
   "property": "C50",
   "status": "proved",
   "theorems": [
    "C50_compute_data"
   ],
   "note": "covers conversion, transformation, property computation and interval construction; guards are those under which the constructor is meaningful"
  },
  {
   "property": "C51",
   "status": "proved",
   "theorems": [
    "C51_reach"
   ],
   "note": "the interval-set hypotheses are those C50 proves of every set in the index"
  },
  {
   "property": "C52",
   "status": "proved",
   "theorems": [
    "C52_relabel",
    "C52_relabel_fst",
    "C52_relabel_pairs"
   ],
   "note": "hash map order is insertion order; the pairs are characterised up to order"
  },
  {
   "property": "C53",
   "status": "proved",
   "theorems": [
    "C53_fst_convert",
    "C53_no_start",
    "C53_no_start_refuted"
   ],
   "note": "the refuted theorem shows the start state is needed for right property bits"
  },
  {
   "property": "C54",
   "status": "proved",
   "theorems": [
    "C54_lookahead_fst",
    "C54_lookahead_label",
    "C54_no_data",
    "C54_final_label_refuted"
   ],
   "note": "output side (the matcher of the first machine looks into the second); input side of the data is C50/C51"
  },
  {
   "property": "C55",
   "status": "proved",
   "theorems": [
    "C55_lookahead",
    "C55_push_weights",
    "C55_push_labels",
    "C55_sequence_refuted",
    "C55_non_epsilons_refuted",
    "C55_cancelling_refuted"
   ],
   "note": "selector SMatchOutput; hypotheses ready/complete_index are met by the preparation of C56"
  },
  {
   "property": "C56",
   "status": "proved",
   "theorems": [
    "C56_lookahead_compose",
    "C56_as_compose"
   ],
   "note": "exact weights; NO_LABEL/NO_STATE_ID as separate constructors"
  },
  {
   "property": "C57",
   "status": "proved",
   "theorems": [
    "C57_push_labels",
    "C57_pushed",
    "C57_completes",
    "C57_relation",
    "C57_totals",
    "C57_other_modes",
    "C57_self_loop_refuted",
    "C57_no_path_refuted"
   ],
   "note": "ReweightToInitial in full; ToFinal is modelled, not proved. Quantization and KDELTA are exact equality. Self-loops must write nothing and be idle: C57_self_loop_refuted is a machine on which a writing self-loop leaves a stale distance and push changes the outputs. C57_no_path_refuted: with no successful path one removal flag alone panics or errs. A machine without a start becomes an empty machine without symbol tables."
  },
  {
   "property": "C58",
   "status": "proved",
   "theorems": [
    "C58_minimize",
    "C58_totals",
    "C58_completes",
    "C58_states",
    "C58_dispatch",
    "C58_more_states_refuted"
   ],
   "note": "Deterministic transducers without epsilons at final states; exact weights (quantization is the identity). C58_more_states_refuted: factoring long strings can leave more states than the input had. The allow_nondet route for idempotent weights is modelled but only its dispatch is proved."
  },
  {
   "property": "C59",
   "status": "proved",
   "theorems": [
    "C59_unweighted",
    "C59_unweighted_any",
    "C59_weighted",
    "C59_no_start",
    "C59_max_length_refuted",
    "C59_delayed_bits_refuted"
   ],
   "note": "Random numbers are an arbitrary stream; -ln(a/b) is an arbitrary weight function that multiplies (floating-point rounding is outside). Two documented expectations are refuted by witnesses: paths of length max_length, and the sorted bits of the unweighted delayed machine."
  },
  {
   "property": "C60",
   "status": "proved",
   "theorems": [
    "C60_writes_rel",
    "C60_transducer",
    "C60_determinize",
    "C60_epsilons_refuted",
    "C60_dead_states_refuted",
    "C60_zero_final_refuted"
   ],
   "note": "Functional variant only. Hypotheses: no zero final weight (shown to be refused otherwise), exact division as in C38. Termination is not claimed."
  },
  {
   "property": "C61",
   "status": "proved",
   "theorems": [
    "C61_bits",
    "C61_zero_weight_refuted"
   ],
   "note": "All bits of determinize_properties for acceptors; coaccessible and string need zero-free weights without zeros (refuted otherwise)."
  },
  {
   "property": "C62",
   "status": "proved",
   "theorems": [
    "C62_optimize",
    "C62_tropical",
    "C62_only_sums",
    "C62_unweighted_forgotten",
    "C62_cycle_refuted",
    "C62_no_start_refuted"
   ],
   "note": "All of optimize is modelled. The optimality theorem covers acyclic epsilon-free acceptors with known bits (the direct route); the transducer routes and the routes through rm_epsilon are modelled, but only their dispatch is stated. Quantization is the identity (f32 rounding not modelled); the panic is the subtraction tuple_id - 1, which in release builds wraps and yields an error instead."
  },
  {
   "property": "C63",
   "status": "proved",
   "theorems": [
    "C63_union",
    "C63_concat",
    "C63_closure_star",
    "C63_closure_plus",
    "C63_reserved_label_refuted"
   ],
   "note": "The three delayed constructions over the replacement model; for every semiring (both distributivities). The claim is proved for machines whose output labels avoid the reserved labels; the refuted theorem shows what happens otherwise. The property words answered by properties() are not covered."
  },
  {
   "property": "C64",
   "status": "proved",
   "theorems": [
    "C64_tables",
    "C64_paths",
    "C64_string_exists",
    "C64_read_back",
    "C64_read_back_output",
    "C64_injective",
    "C64_space_refuted"
   ],
   "note": "The tables are separate arguments of the model (the tables stored in a machine are opaque there)."
  },
  {
   "property": "C65",
   "status": "proved",
   "theorems": [
    "C65_compose_bits",
    "C65_compose_known"
   ],
   "note": "Sorted matchers; the look-ahead composition keeps a subset of the same word (C55) and is not covered here."
  },
  {
   "property": "C66",
   "status": "proved",
   "theorems": [
    "C66_rm_epsilon_fst",
    "C66_no_start"
   ],
   "note": "The conditions on weights are those of C37 (removable) plus termination of the distances (no endless growth, or no epsilon cycle). An out-of-fuel distance counts as an error of the operation; enough fuel exists by the first part of the theorem."
  },
  {
   "property": "C67",
   "status": "proved",
   "theorems": [
    "C67_optimize_epsilons",
    "C67_tropical",
    "C67_unsorted_refuted"
   ],
   "note": "For sorted acyclic acceptors with any epsilons, over commutative zero-free cancellative weakly divisible semirings with exact division (tropical integers as instance); fuel is existential with monotonicity. C67_unsorted_refuted: the same machine with its states renumbered (ACYCLIC still known) is returned nondeterministic. A machine that accepts nothing is outside the theorem (C67_empty_test shows one)."
  },
  {
   "property": "C68",
   "status": "proved",
   "theorems": [
    "C68_unique",
    "C68_stops",
    "C68_not_unique",
    "C68_epsilons_refuted"
   ],
   "note": "shortest_path_with_config with unique = true and n >= 2 on acceptors without epsilons. Commutative cancellative path weights with exact division whose reverse is the identity (min-plus meets all; Example); approx_equal and quantization taken as exact. With epsilons the claim is refuted by a witness: epsilon is a label like any other for the determinization, so one string can come twice. Transducers are refused (Example C68_transducer_test). Without unique the function is C47's."
  },
  {
   "property": "C69",
   "status": "proved",
   "theorems": [
    "C69_numbers",
    "C69_lawful",
    "C69_not_idempotent",
    "C69_divide",
    "C69_divide_unique",
    "C69_star",
    "C69_closure",
    "C69_closure_refuted",
    "C69_semiring",
    "C69_determinize"
   ],
   "note": "Over the reals of the standard library (its axioms are listed in DESIGN.md): f32 rounding is not modelled, negative infinity and NaN are outside the carrier. StarSemiring::closure computes ln(1 - x) where the star is ln(1 - exp(-x)): the star claim is refuted, with an exact characterization of where it holds."
  },
  {
   "property": "C70",
   "status": "proved",
   "theorems": [
    "C70_boolean",
    "C70_tropical",
    "C70_tropical_powers",
    "C70_tropical_refuted",
    "C70_probability",
    "C70_probability_unique",
    "C70_integer",
    "C70_all_pairs"
   ],
   "note": "Exact arithmetic as in C27 (-0.0 is not a value, i32 overflow not modelled). The star equation c = 1 + x c holds for booleans always, tropical weights except zero, probabilities except one, integers only at zero; log weights are C69_closure. all_pairs_shortest_distance sums all paths of machines without cycles for the weights whose closure takes zero to one; for tropical weights see C17_tropical_refuted."
  },
  {
   "property": "C71",
   "status": "proved",
   "theorems": [
    "C71_lookahead_fst",
    "C71_sound",
    "C71_lookahead_label",
    "C71_weight_refuted"
   ],
   "note": "TrLookAheadMatcher over SortedMatcher, whose transitions are known to be sorted on the matched side. None is returned exactly when there is no way on, and then no two successful paths agree. The reported weight starts from one, so it is one plus the weight of the ways (refuted as the weight of the ways); with only one of LOOKAHEAD_WEIGHT and LOOKAHEAD_PREFIX the data are the defaults. Composition through this matcher is not modelled. TrivialLookAheadMatcher answers a constant and has no statement."
  },
  {
   "property": "C72",
   "status": "proved",
   "theorems": [
    "C72_lookahead",
    "C72_once",
    "C72_prunes"
   ],
   "note": "In the source only AltSequenceComposeFilter implements the trait that an inner filter needs; the theorems cover all six filters of the model. C72_prunes speaks of the transitions computed for a tuple. Label pushing on top of this matcher is not covered."
  },
  {
   "property": "C73",
   "status": "proved",
   "theorems": [
    "C73_push_weights"
   ],
   "note": "Exact arithmetic (no rounding). In the source only AltSequenceComposeFilter can be the inner filter."
  },
  {
   "property": "C74",
   "status": "proved",
   "theorems": [
    "C74_sigma",
    "C74_once",
    "C74_refused",
    "C74_writes_sigma_refuted"
   ],
   "note": "Sigma on the second machine only; NO_LABEL as sigma label (which switches the matcher off) is not modelled."
  },
  {
   "property": "C75",
   "status": "proved",
   "theorems": [
    "C75_sigma",
    "C75_once",
    "C75_refused"
   ],
   "note": "Sigma on the first machine only; with sigma on both sides a pair of states that both have sigma is an error in the code, which is not modelled."
  },
  {
   "property": "C76",
   "status": "proved",
   "theorems": [
    "C76_selector",
    "C76_both",
    "C76_forced",
    "C76_none",
    "C76_forced_refuted"
   ],
   "note": "C76_forced_refuted: a forced side over an unsorted machine loses a path silently"
  },
  {
   "property": "C77",
   "status": "proved",
   "theorems": [
    "C77_trivial",
    "C77_compose"
   ],
   "note": "machine equality over any inner filter; weights through C76"
  },
  {
   "property": "C78",
   "status": "proved",
   "theorems": [
    "C78_push"
   ],
   "note": "exact weights; f32 rounding and quantization are outside the model"
  }
 ]
}
