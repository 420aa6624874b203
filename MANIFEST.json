{
 "claims": [
  {
   "property": "C01",
   "status": "proved",
   "theorems": [
    "C01_rand_is_mt_stream",
    "C01_spec_sequence_exists_unique",
    "C01_reseed_is_mt_stream"
   ],
   "note": ""
  },
  {
   "property": "C02",
   "status": "proved",
   "theorems": [
    "C02_save_restore_same_stream"
   ],
   "note": ""
  },
  {
   "property": "C03",
   "status": "proved",
   "theorems": [
    "C03_random_in_range",
    "C03_random_onto",
    "C03_rand_is_32_bit",
    "C03_uniform_in_unit_interval",
    "C03_uniform_in_interval",
    "C03_flip_extremes",
    "C03_flip_threshold",
    "C03_binomial_range",
    "C03_binomial_counts_successes"
   ],
   "note": ""
  },
  {
   "property": "C04",
   "status": "proved",
   "theorems": [
    "C04_truncate_keeps_best",
    "C04_linear_truncate_keeps_best"
   ],
   "note": ""
  },
  {
   "property": "C05",
   "status": "proved",
   "theorems": [
    "C05_ep_reduce_keeps_highest_scores",
    "C05_random_reduce",
    "C05_ep_reduce",
    "C05_det_tournament_truncate",
    "C05_stoch_tournament_truncate"
   ],
   "note": ""
  },
  {
   "property": "C06",
   "status": "proved",
   "theorems": [
    "C06_truncate_split",
    "C06_linear_truncate_split",
    "C06_random_split",
    "C06_linear_random_split",
    "C06_det_tournament_split",
    "C06_det_tournament_split_all_never_returns",
    "C06_oversized_split_outside"
   ],
   "note": "Partition proved for every split operator. Outside: an oversized request is undefined behaviour instead of an exception in three splits; tournament split of the whole population never returns. eoStochTournamentTruncateSplit is abstract in the library (wrong base class), not modelled."
  },
  {
   "property": "C07",
   "status": "proved",
   "theorems": [
    "C07_plus_replacement",
    "C07_comma_replacement",
    "C07_plus_never_loses_best",
    "C07_ep_replacement"
   ],
   "note": ""
  },
  {
   "property": "C08",
   "status": "proved",
   "theorems": [
    "C08_too_many_offspring",
    "C08_ssga_worse",
    "C08_ssga_tournaments"
   ],
   "note": ""
  },
  {
   "property": "C09",
   "status": "proved",
   "theorems": [
    "C09_weak_elitism_one_step",
    "C09_weak_elitism_all_generations",
    "C09_weak_elitism_total"
   ],
   "note": ""
  },
  {
   "property": "C10",
   "status": "partial",
   "theorems": [
    "C10_elitism_copies_everything",
    "C10_elitism_copies_elite_refuted"
   ],
   "note": "refuted: the whole population is copied, for every elite size strictly between 0 and the population size; the exact behaviour is proved."
  },
  {
   "property": "C11",
   "status": "proved",
   "theorems": [
    "C11_how_many_count",
    "C11_how_many_rate",
    "C11_how_many_negative_rate",
    "C11_how_many_opposite",
    "C11_how_many_opposite_rate",
    "C11_select_many",
    "C11_select_number",
    "C11_select_perc",
    "C11_selection_never_fails",
    "C11_selectors_meet_contract",
    "C11_truncated_select_many",
    "C11_truncated_select_one",
    "C11_det_select"
   ],
   "note": ""
  },
  {
   "property": "C12",
   "status": "proved",
   "theorems": [
    "C12_deterministic_tournament",
    "C12_inverse_deterministic_tournament",
    "C12_stochastic_tournament",
    "C12_inverse_stochastic_tournament"
   ],
   "note": ""
  },
  {
   "property": "C13",
   "status": "proved",
   "theorems": [
    "C13_roulette_wheel",
    "C13_roulette_zero",
    "C13_rng_roulette_wheel",
    "C13_proportional_select",
    "C13_sum_fitness",
    "C13_universal_sampling",
    "C13_universal_sampling_zero_outside"
   ],
   "note": "Roulette wheels characterised exactly; universal sampling proved when no sampling point falls on a slot boundary; an all-zero fitness vector is undefined behaviour (proved for every size)."
  },
  {
   "property": "C14",
   "status": "proved",
   "theorems": [
    "C14_sequential_select",
    "C14_sequential_select_after_setup",
    "C14_elite_sequential_select",
    "C14_elite_sequential_single"
   ],
   "note": ""
  },
  {
   "property": "C15",
   "status": "proved",
   "theorems": [
    "C15_ranking_by_rank",
    "C15_ranking_monotone",
    "C15_ranking_nonlinear",
    "C15_ranking_sum",
    "C15_cached_ranking_same"
   ],
   "note": "Rank-based worths, monotonicity, positivity, exact sum and cache correctness proved for up to 65536 individuals (32-bit product beyond)."
  },
  {
   "property": "C16",
   "status": "proved",
   "theorems": [
    "C16_one_bit_flip",
    "C16_det_single_exactly_k_distinct",
    "C16_det_bit_flip_at_most_k",
    "C16_bit_mutation",
    "C16_inversion_reverses_a_segment",
    "C16_inversion_self_inverse",
    "C16_inversion_never_stuck",
    "C16_inversion_empty_diverges",
    "C16_standard_bit_mutation",
    "C16_uniform_bit_mutation",
    "C16_conditional_bit_mutation",
    "C16_shifted_bit_mutation"
   ],
   "note": "Every mutation characterised. Bernoulli and binomial draws are arbitrary oracle values, so distributions are not modelled."
  },
  {
   "property": "C17",
   "status": "proved",
   "theorems": [
    "C17_next_adds_one",
    "C17_prev_subtracts_one",
    "C17_next_prev_inverse",
    "C17_value_determines",
    "C17_full_cycle",
    "C17_iterated_next"
   ],
   "note": ""
  },
  {
   "property": "C18",
   "status": "proved",
   "theorems": [
    "C18_one_point",
    "C18_uniform",
    "C18_uniform_mismatch_undefined",
    "C18_n_points",
    "C18_n_points_never_stuck",
    "C18_n_points_diverges",
    "C18_genes",
    "C18_genes_never_stuck"
   ],
   "note": "proved for one-point, uniform, n-points and gene crossovers; findings: undefined behaviour of the uniform crossover on a longer first parent, non-termination of n-points on one-bit chromosomes or zero points."
  },
  {
   "property": "C19",
   "status": "proved",
   "theorems": [
    "C19_swap_mutation",
    "C19_shift_mutation",
    "C19_two_opt_mutation",
    "C19_drawn_segment",
    "C19_mutations_never_stuck",
    "C19_singleton_diverges"
   ],
   "note": "proved for every sequence of at least two elements; finding: on a one-element sequence the mutations never return (C19_singleton_diverges)."
  },
  {
   "property": "C20",
   "status": "proved",
   "theorems": [
    "C20_order_crossover",
    "C20_unsigned_char_outside"
   ],
   "note": "Proved for every pair of permutations of s..s+n-1 with n < 2^30 where plain char is signed; C20_unsigned_char_outside shows what happens otherwise. The segment is moved to the front of the child, which is what the code does."
  },
  {
   "property": "C21",
   "status": "proved",
   "theorems": [
    "C21_partially_mapped_crossover",
    "C21_never_stuck",
    "C21_one_based_outside"
   ],
   "note": "Proved for permutations of 0..n-1 with termination in at most n steps per gene; permutations of another range index outside the maps (C21_one_based_outside)."
  },
  {
   "property": "C22",
   "status": "proved",
   "theorems": [
    "C22_general_breeder",
    "C22_valid_fitness_is_right",
    "C22_breeder_ends",
    "C22_breeder_applies_operator",
    "C22_sga_transform",
    "C22_sga_transform_sure"
   ],
   "note": "Size, provenance, invalidation and termination proved for every operator tree."
  },
  {
   "property": "C23",
   "status": "proved",
   "theorems": [
    "C23_easy_ea_run",
    "C23_library_evaluators",
    "C23_generations",
    "C23_run_ends",
    "C23_elitist_run_monotone",
    "C23_sga_run"
   ],
   "note": ""
  },
  {
   "property": "C24",
   "status": "proved",
   "theorems": [
    "C24_gen_continue",
    "C24_steady_fit",
    "C24_steady_resumed_outside",
    "C24_fit_continue",
    "C24_periodic",
    "C24_combined",
    "C24_eval_continue"
   ],
   "note": "Every continuator characterised over all call histories. Outside: eoSteadyFitContinue's second constructor leads to an uninitialised read. eoTimeContinue (clock) is not modelled."
  },
  {
   "property": "C25",
   "status": "proved",
   "theorems": [
    "C25_counter",
    "C25_throwing_counter",
    "C25_keep_best"
   ],
   "note": ""
  },
  {
   "property": "C26",
   "status": "proved",
   "theorems": [
    "C26_fold_interval",
    "C26_fold_unique",
    "C26_fold_periodic",
    "C26_fold_answers",
    "C26_fold_far",
    "C26_fold_half",
    "C26_fold_half_mirror",
    "C26_truncate",
    "C26_in_bounds",
    "C26_truncate_vector",
    "C26_fold_vector",
    "C26_in_bounds_vector",
    "C26_int_random"
   ],
   "note": "Proved in exact arithmetic for all intervals and values (in bounds, reflection, uniqueness, periodicity, when it answers), truncation and membership for every kind of bounds and vectors, half-bounded folding for any monotone rounding."
  },
  {
   "property": "C27",
   "status": "proved",
   "theorems": [
    "C27_scalar_order",
    "C27_dual_order",
    "C27_dual_feasible_first",
    "C27_dual_converse",
    "C27_dual_equal",
    "C27_split",
    "C27_split_answers"
   ],
   "note": "over an arbitrary scalar type with a strict weak order; fitnesses whose feasibility was never set make the comparison assert."
  },
  {
   "property": "C28",
   "status": "proved",
   "theorems": [
    "C28_linear",
    "C28_linear_result",
    "C28_no_worker"
   ],
   "note": "every interleaving of the workers; element accesses are modelled as atomic (packages are disjoint, so there is no race). With no worker the package size divides by zero (C28_no_worker)."
  },
  {
   "property": "C29",
   "status": "proved",
   "theorems": [
    "C29_never_twice",
    "C29_all_once",
    "C29_result",
    "C29_can_finish",
    "C29_no_worker"
   ],
   "note": "Never twice, all exactly once, result and absence of deadlock proved for every schedule with at least one worker, reads of a package being atomic."
  },
  {
   "property": "C30",
   "status": "proved",
   "theorems": [
    "C30_complete",
    "C30_ring",
    "C30_ring_of_one_outside",
    "C30_star",
    "C30_hypercube",
    "C30_hypercube_refused",
    "C30_mesh",
    "C30_mesh_square",
    "C30_mesh_prime_outside",
    "C30_neighbors",
    "C30_isolate"
   ],
   "note": "Every topology proved for every number of nodes. Outside: a mesh of a prime number of nodes (or of one node) is undefined, and a ring of one node is its own neighbour. Mesh ratios are exact rationals."
  },
  {
   "property": "C31",
   "status": "proved",
   "theorems": [
    "C31_shares_balanced",
    "C31_never_fails",
    "C31_get",
    "C31_after_any_history",
    "C31_exact_shares",
    "C31_not_exhausted_early",
    "C31_reinit",
    "C31_degenerate_outside",
    "C31_same_rank_twice_outside"
   ],
   "note": "Proved for every history of requests and confirmations with distinct positive ranks and at least one worker and run; the _outside theorems show what happens otherwise (no worker, no run, repeated rank)."
  },
  {
   "property": "C32",
   "status": "proved",
   "theorems": [
    "C32_apply_is_map_dynamic",
    "C32_always_ends_dynamic",
    "C32_apply_is_map_static",
    "C32_always_ends_static",
    "C32_static_too_few_runs_outside",
    "C32_no_worker_outside",
    "C32_rank_zero_outside"
   ],
   "note": "Proved for every schedule, packet size, number of distinct positive ranks, for both assignment algorithms (static: enough runs for the packets); every schedule ends. Outside: too few static runs, no worker, a worker of rank 0."
  },
  {
   "property": "C33",
   "status": "proved",
   "theorems": [
    "C33_round_trip",
    "C33_any_layout",
    "C33_printed_is_layout",
    "C33_objects_are_maps",
    "C33_print_injective",
    "C33_string_iff_escaped",
    "C33_quote_outside",
    "C33_backslash_outside",
    "C33_space_before_colon_outside",
    "C33_number_in_array_outside",
    "C33_truncated_outside"
   ],
   "note": "Proved for every value and every layout, and the string condition is shown to be exact. Outside: unescaped quote or dangling backslash, space before a colon, unquoted scalar in an array (endless loop), truncated text."
  },
  {
   "property": "C34",
   "status": "proved",
   "theorems": [
    "C34_order",
    "C34_with_replacement",
    "C34_without_replacement",
    "C34_every_order",
    "C34_position",
    "C34_pairs"
   ],
   "note": "Order, with/without replacement and pair neighborhoods; without replacement from every state reachable by any history of init/next calls, for every draw sequence; every visiting order is attainable."
  },
  {
   "property": "C35",
   "status": "proved",
   "theorems": [
    "C35_swap",
    "C35_two_opt",
    "C35_shift",
    "C35_bit",
    "C35_swap_keys",
    "C35_swap_keys_32768",
    "C35_swap_overflow_outside",
    "C35_shift_keys",
    "C35_shift_distinct"
   ],
   "note": "Exact effect and undo of swap, 2-opt, shift and bit moves; index/set bijections; bijection of the n(n-1) shift keys with the true insertions and the exact list of coincidences. Outside: indexed swap wraps round for n >= 32769."
  },
  {
   "property": "C36",
   "status": "proved",
   "theorems": [
    "C36_simple_hc",
    "C36_first_improvement_hc",
    "C36_simple_terminates",
    "C36_first_improvement_terminates",
    "C36_bit_strings",
    "C36_arrangements"
   ],
   "note": "moSimpleHC and moFirstImprHC over every neighborhood meeting the contract, any strict weak order on fitnesses, any continuator; termination on every finite space; instances without hypotheses for bit strings and exchanges."
  },
  {
   "property": "C37",
   "status": "proved",
   "theorems": [
    "C37_indexed",
    "C37_indexed_fixed",
    "C37_indexed_total",
    "C37_neighbor_list",
    "C37_solution_list",
    "C37_index_out_of_range_outside",
    "C37_solution_list_without_init_outside",
    "C37_empty_list_outside"
   ],
   "note": "All three lists proved for every history of calls (robust and random tenures included). Outside: an index >= maxSize is ignored by add but read by check; moSolVectorTabuList uses its index uninitialised when full if init was never called; a list of 0 entries divides by zero."
  },
  {
   "property": "C38",
   "status": "proved",
   "theorems": [
    "C38_best_admissible_move",
    "C38_returns_best_visited",
    "C38_tenure"
   ],
   "note": "Every iteration moves to the best admissible neighbor for every tabu list, aspiration, intensification and diversification; with an indexed tabu list and best-improvement aspiration a bit is not flipped again within its tenure unless a new best is found. The solution returned is the best visited when intensification and diversification leave the solution as it is."
  },
  {
   "property": "C39",
   "status": "proved",
   "theorems": [
    "C39_onemax",
    "C39_onemax_bits",
    "C39_onemax_value",
    "C39_onemax_bits_repeated_outside",
    "C39_royal_value",
    "C39_royal",
    "C39_ubqp",
    "C39_ubqp_bits",
    "C39_ubqp_bits_restores",
    "C39_qap",
    "C39_qap_value",
    "C39_maxsat_value",
    "C39_maxsat_instances",
    "C39_maxsat_instances_total",
    "C39_nk_value",
    "C39_nk",
    "C39_nk_bits",
    "C39_nk_inverse_links",
    "C39_nk_repeated_links_outside",
    "C39_in_searches"
   ],
   "note": "Proved for every instance, solution and move, with the value of each full evaluation characterised; the evaluations meet the hypotheses of the local search theorems. Outside: a repeated bit in OneMax bits, NK with repeated links (K >= N). Overflow and rounding of double sums are not modelled."
  },
  {
   "property": "C40",
   "status": "proved",
   "theorems": [
    "C40_deltas",
    "C40_second_run_outside",
    "C40_init"
   ],
   "note": "Proved for every trajectory after construction or init(). Outside: a second search without init() uses the table of the first."
  },
  {
   "property": "C41",
   "status": "proved",
   "theorems": [
    "C41_subsets",
    "C41_size",
    "C41_binomial",
    "C41_size_overflow_outside",
    "C41_explore",
    "C41_random",
    "C41_move"
   ],
   "note": "Subset list complete and without repetition for every length and radius, announced size equal to it when the 32-bit products do not wrap, exploration without replacement from any reachable state, exact-distance random subsets, exact effect and undo of the move. Outside: the size computation wraps (128 bits, radius 5)."
  },
  {
   "property": "C42",
   "status": "proved",
   "theorems": [
    "C42_textbook",
    "C42_transitive",
    "C42_tolerance",
    "C42_irreflexive",
    "C42_asymmetric",
    "C42_congruence",
    "C42_equal",
    "C42_not_transitive_with_tolerance",
    "C42_cycle_with_tolerance"
   ],
   "note": "Zero tolerance: exactly textbook domination, a strict order; any tolerance: irreflexive, asymmetric and equal to domination up to the tolerance; with a positive tolerance neither transitive nor acyclic."
  },
  {
   "property": "C43",
   "status": "proved",
   "theorems": [
    "C43_front",
    "C43_more",
    "C43_order",
    "C43_update",
    "C43_antichain",
    "C43_flag",
    "C43_queries",
    "C43_coverage_with_tolerance_outside"
   ],
   "note": "Exactly the Pareto front of everything offered, for any history, with zero tolerance; mutual non-domination with any comparator. Outside: with a positive tolerance (not transitive) an offered individual can be covered by no member."
  },
  {
   "property": "C44",
   "status": "proved",
   "theorems": [
    "C44_many",
    "C44_pareto",
    "C44_order",
    "C44_unique",
    "C44_two",
    "C44_two_repeated",
    "C44_one",
    "C44_cyclic",
    "C44_tolerance_outside",
    "C44_empty"
   ],
   "note": "One, two and more objectives: every individual gets its front number, for any population. Outside: positive tolerance (cycle: the assignment throws)."
  },
  {
   "property": "C45",
   "status": "proved",
   "theorems": [
    "C45_matrix",
    "C45_pareto",
    "C45_count",
    "C45_rank",
    "C45_ranking"
   ],
   "note": "First call on an object, any populations and asymmetric comparator: matrix, counts, ranks, equal totals, and the three fitness assignments."
  },
  {
   "property": "C46",
   "status": "proved",
   "theorems": [
    "C46_elitist",
    "C46_environmental",
    "C46_environmental_best",
    "C46_comparators",
    "C46_fit_then_div"
   ],
   "note": "size, provenance and keeping the best for any strict weak order; removal of a worst at each step; assignments are arbitrary functions that keep the solutions."
  },
  {
   "property": "C47",
   "status": "proved",
   "theorems": [
    "C47_recursion_is_volume",
    "C47_volume_is_unique",
    "C47_metric_with_reference_point",
    "C47_metric_normalised",
    "C47_difference_of_covering_sets",
    "C47_one_objective_outside",
    "C47_beyond_reference_outside",
    "C47_constant_objective_outside",
    "C47_negative_maximum_outside"
   ],
   "note": "Recursion equals the volume by cell counting in any dimension >= 2, any front in the positive orthant; reference-point and normalised metrics; difference metric. Outside: one objective, points beyond the reference point, a constant objective when normalising, negative maxima with a coefficient."
  },
  {
   "property": "C48",
   "status": "proved",
   "theorems": [
    "C48_least",
    "C48_sign",
    "C48_triangle"
   ],
   "note": "least translation, sign and triangle inequality for any number of objectives; arithmetic on exact rationals."
  },
  {
   "property": "C49",
   "status": "proved",
   "theorems": [
    "C49_bounded",
    "C49_entry",
    "C49_fitdiv",
    "C49_fitdiv_keeps_worst"
   ],
   "note": "Size and mutual non-domination for any history."
  },
  {
   "property": "C50",
   "status": "proved",
   "theorems": [
    "C50_random",
    "C50_random_total",
    "C50_consecutive",
    "C50_table_restored",
    "C50_too_many_links_outside"
   ],
   "note": "Proved for every N, K < N and draw sequence. Outside: K >= N gives undefined behaviour (random) or repeated links (consecutive)."
  },
  {
   "property": "C51",
   "status": "proved",
   "theorems": [
    "C51_start",
    "C51_select",
    "C51_move",
    "C51_explore",
    "C51_nothing_selected_outside"
   ],
   "note": "Moves, undo and exploration proved for every partition with both sides non-empty. Outside: hasNeighbor says yes with nothing selected, and the exploration is then undefined."
  },
  {
   "property": "C52",
   "status": "proved",
   "theorems": [
    "C52_returns_best",
    "C52_rounds",
    "C52_ends"
   ],
   "note": "Proved for every selection, criterion, heuristics and continuator."
  },
  {
   "property": "C53",
   "status": "proved",
   "theorems": [
    "C53_normalised",
    "C53_evaluated"
   ],
   "note": "Proved for every square matrix and solution."
  },
  {
   "property": "C54",
   "status": "proved",
   "theorems": [
    "C54_fitness_history",
    "C54_comparison"
   ],
   "note": "Proved over all histories of evaluate, invalidate and restore."
  },
  {
   "property": "C55",
   "status": "proved",
   "theorems": [
    "C55_best_element",
    "C55_worse_element",
    "C55_nth_element_fitness"
   ],
   "note": ""
  },
  {
   "property": "C56",
   "status": "proved",
   "theorems": [
    "C56_weak_elitism_exact",
    "C56_strong_elitism",
    "C56_size_preserved"
   ],
   "note": "Size and strong elitism proved."
  },
  {
   "property": "C57",
   "status": "proved",
   "theorems": [
    "C57_survive_and_die_replacement"
   ],
   "note": ""
  },
  {
   "property": "C58",
   "status": "proved",
   "theorems": [
    "C58_mgg_replacement",
    "C58_g3_replacement"
   ],
   "note": ""
  },
  {
   "property": "C59",
   "status": "partial",
   "theorems": [
    "C59_elite_select_first",
    "C59_elite_select_refuted"
   ],
   "note": "refuted: the first individual is returned, whatever its fitness."
  },
  {
   "property": "C60",
   "status": "partial",
   "theorems": [
    "C60_det_select_best_refuted"
   ],
   "note": "refuted by witness; the exact behaviour is C11_det_select."
  },
  {
   "property": "C61",
   "status": "proved",
   "theorems": [
    "C61_permutation_init",
    "C61_fixed_length_init",
    "C61_variable_length_init",
    "C61_variable_length_reached",
    "C61_population_create",
    "C61_population_append"
   ],
   "note": ""
  },
  {
   "property": "C62",
   "status": "proved",
   "theorems": [
    "C62_sequence_pipeline",
    "C62_sequence_group"
   ],
   "note": "Proved for monadic operators after any basic operator."
  },
  {
   "property": "C63",
   "status": "proved",
   "theorems": [
    "C63_one_to_one",
    "C63_never_worse"
   ],
   "note": "Proved for single-parent operators."
  },
  {
   "property": "C64",
   "status": "proved",
   "theorems": [
    "C64_vector",
    "C64_bits",
    "C64_bits_failed",
    "C64_population"
   ],
   "note": "Round trips proved at character level for vectors, non-empty bit strings and populations of any restorable individual, given a fitness text that reads back (so not for doubles printed with too few digits)."
  },
  {
   "property": "C65",
   "status": "proved",
   "theorems": [
    "C65_registration",
    "C65_distinct",
    "C65_class_accepted"
   ],
   "note": "Proved for every sequence of registrations."
  },
  {
   "property": "C66",
   "status": "proved",
   "theorems": [
    "C66_dual_sum",
    "C66_dual_operand",
    "C66_assembled_order",
    "C66_describe",
    "C66_push"
   ],
   "note": "Sums, operand preservation between dual fitnesses, orders and descriptions proved."
  },
  {
   "property": "C67",
   "status": "proved",
   "theorems": [
    "C67_weak",
    "C67_pareto_weak",
    "C67_strict",
    "C67_strict_zero_outside",
    "C67_epsilon",
    "C67_g",
    "C67_g_order",
    "C67_dual",
    "C67_dual_order",
    "C67_lexicographic"
   ],
   "note": "Each comparator equals its definition. Outside: with zero tolerance the strict comparator accepts equal vectors."
  },
  {
   "property": "C68",
   "status": "proved",
   "theorems": [
    "C68_det_tournament",
    "C68_stoch_tournament",
    "C68_pop_and_arch",
    "C68_archive",
    "C68_archive_empty_outside",
    "C68_unvisited",
    "C68_number_unvisited",
    "C68_wheel"
   ],
   "note": "Tournaments, archive and unvisited selection proved; the wheel is right for the true total. Outside: archive selection from an empty archive with min > 0 divides by zero."
  },
  {
   "property": "C69",
   "status": "proved",
   "theorems": [
    "C69_random_best",
    "C69_any_best_neighbor",
    "C69_neutral_hc",
    "C69_random_walk",
    "C69_neutral_walk"
   ],
   "note": "Any fitness type with a total order; any continuator that does not change the solution; nbStep = 0 still takes one turn."
  },
  {
   "property": "C70",
   "status": "proved",
   "theorems": [
    "C70_turns",
    "C70_memory",
    "C70_always",
    "C70_better"
   ],
   "note": "Proved for every perturbation, local search, criterion and continuator (operators arbitrary partial functions)."
  },
  {
   "property": "C71",
   "status": "proved",
   "theorems": [
    "C71_metropolis",
    "C71_ends",
    "C71_equal_accepted",
    "C71_monotone"
   ],
   "note": "Proved with exact rationals for doubles and any positive strictly increasing exp with exp(0) = 1; rounding of the division and of exp is not modelled."
  },
  {
   "property": "C72",
   "status": "proved",
   "theorems": [
    "C72_simple",
    "C72_simple_stops",
    "C72_dynamic",
    "C72_spans",
    "C72_quiet_end",
    "C72_dynamic_endless"
   ],
   "note": "Proved for every history, in exact rationals."
  },
  {
   "property": "C73",
   "status": "proved",
   "theorems": [
    "C73_ratio",
    "C73_zero_fitness_outside",
    "C73_negative_fitness_outside"
   ],
   "note": "Proved for positive fitness. Outside: from fitness 0 every worse neighbor is accepted without a draw, and with negative fitness every worse neighbor is accepted because the ratio is above 1."
  },
  {
   "property": "C74",
   "status": "proved",
   "theorems": [
    "C74_iterations",
    "C74_iterations_of_a_search",
    "C74_search_obeys",
    "C74_fitness",
    "C74_no_improvement",
    "C74_tracked_reference",
    "C74_no_improvement_of_tracked_best",
    "C74_evaluations",
    "C74_combined"
   ],
   "note": "All criteria proved on every history. Unsigned wrap-around of the counters is not modelled."
  },
  {
   "property": "C75",
   "status": "proved",
   "theorems": [
    "C75_checkpoint",
    "C75_checkpoint_general",
    "C75_first_statistic_never_computed",
    "C75_interval_zero_outside",
    "C75_best_so_far",
    "C75_best_so_far_kept"
   ],
   "note": "Proved as documented with at most one statistic or interval 1, and the exact rule in general. Outside: interval 0 is a remainder by zero."
  },
  {
   "property": "C76",
   "status": "proved",
   "theorems": [
    "C76_checkpoint",
    "C76_counted_saver",
    "C76_counter_monitor",
    "C76_interval_zero_outside"
   ],
   "note": "Proved for all checkpoints and all positive intervals; interval 0 of a saver is a remainder by zero. The timed saver is not modelled."
  },
  {
   "property": "C77",
   "status": "proved",
   "theorems": [
    "C77_numbering",
    "C77_iteration",
    "C77_assignment",
    "C77_save_load",
    "C77_any_sequence",
    "C77_every_tree",
    "C77_cumulative",
    "C77_truncated_outside"
   ],
   "note": "Proved for all trees. Outside: truncated sequences are undefined."
  },
  {
   "property": "C78",
   "status": "proved",
   "theorems": [
    "C78_crossover",
    "C78_crossover_any",
    "C78_prune",
    "C78_branch",
    "C78_expansion",
    "C78_collapse",
    "C78_hoist",
    "C78_point",
    "C78_point_any",
    "C78_point_endless_outside"
   ],
   "note": "Proved for all inputs. Outside: point mutation never ends when no node of its set has the arity of the chosen node."
  },
  {
   "property": "C79",
   "status": "proved",
   "theorems": [
    "C79_trees",
    "C79_ends",
    "C79_terminals",
    "C79_ramped",
    "C79_ramped_cycle",
    "C79_not_ramped",
    "C79_depth_zero_outside",
    "C79_no_terminals_outside"
   ],
   "note": "Proved for depth at least 1. Outside: depth 0 in full mode never ends; without terminals no tree is ever made. The stable sort of the constructor is taken as done."
  },
  {
   "property": "C80",
   "status": "proved",
   "theorems": [
    "C80_particles_remember_their_best",
    "C80_neighborhoods_remember_their_best",
    "C80_best_of_a_particle",
    "C80_global_best",
    "C80_runs_to_the_end",
    "C80_too_large_neighborhoods_are_refused"
   ],
   "note": "Partial correctness for any user functors, and totality when they keep the dimension. The evaluation is a pure function of the positions."
  },
  {
   "property": "C81",
   "status": "proved",
   "theorems": [
    "C81_a_turn_flies_with_the_new_velocity",
    "C81_standard_velocity",
    "C81_constricted_velocity",
    "C81_extended_velocity",
    "C81_standard_flight",
    "C81_the_swarm_stays_inside",
    "C81_swarms_run_to_the_end"
   ],
   "note": "Arithmetic is exact (rationals), not rounded doubles."
  },
  {
   "property": "C82",
   "status": "proved",
   "theorems": [
    "C82_ring_setup"
   ],
   "note": "Proved for all sizes up to the number of particles."
  },
  {
   "property": "C83",
   "status": "proved",
   "theorems": [
    "C83_from_a_neighbour",
    "C83_at_most_once",
    "C83_messages",
    "C83_populations",
    "C83_routing",
    "C83_finished",
    "C83_no_deadlock"
   ],
   "note": "Sequentially consistent interleavings of critical sections. std::async is assumed to start the task eventually; the exact policies, selections and algorithms are arbitrary functions. No-deadlock is the existence of a continuation, not fairness of the operating system."
  },
  {
   "property": "C84",
   "status": "partial",
   "theorems": [
    "C84_only_one_island",
    "C84_queued_are_lost",
    "C84_every_neighbour_refuted",
    "C84_delivered_refuted"
   ],
   "note": "Refuted. The migrants are moved into the first delivery, so at most one island ever integrates them and the others integrate an empty population (C84_only_one_island, C84_every_neighbour_refuted). Messages still queued when the scheduler has seen all islands stopped are routed to nobody, because the nodes are isolated (C84_queued_are_lost), and even a message sent while all the islands run is lost when its sender stops before it is routed (C84_delivered_refuted)."
  },
  {
   "property": "C85",
   "status": "proved",
   "theorems": [
    "C85_segment",
    "C85_segment_unbounded",
    "C85_segment_total",
    "C85_hypercube_inner",
    "C85_hypercube",
    "C85_hypercube_flag",
    "C85_hypercube_refuses",
    "C85_hypercube_total",
    "C85_uniform",
    "C85_uniform_total",
    "C85_sbx"
   ],
   "note": "Doubles are exact rationals; the power function of SBX is an arbitrary function."
  },
  {
   "property": "C86",
   "status": "proved",
   "theorems": [
    "C86_uniform",
    "C86_uniform_total",
    "C86_uniform_bounded",
    "C86_uniform_bounded_total",
    "C86_wrong_size",
    "C86_deterministic",
    "C86_deterministic_total",
    "C86_normal",
    "C86_normal_vec",
    "C86_normal_unbounded"
   ],
   "note": "How the constructors compute the epsilons and sigmas, and the deterministic mutation without bounds, are in C89."
  },
  {
   "property": "C87",
   "status": "proved",
   "theorems": [
    "C87_simple",
    "C87_simple_unbounded",
    "C87_stdev",
    "C87_stdev_unbounded",
    "C87_full",
    "C87_rotation",
    "C87_init",
    "C87_standard_crossover",
    "C87_global_crossover"
   ],
   "note": "Which variables are rotated is in C89."
  },
  {
   "property": "C88",
   "status": "proved",
   "theorems": [
    "C88_call",
    "C88_update",
    "C88_counts",
    "C88_update_total",
    "C88_factor_refused",
    "C88_empty_window_outside"
   ],
   "note": "Exact arithmetic. A window of 0 generations is outside (division by zero)."
  },
  {
   "property": "C89",
   "status": "partial",
   "theorems": [
    "C89_uniform_crossover_sizes_refuted",
    "C89_scaling_refuted",
    "C89_deterministic_unbounded_refuted",
    "C89_normal_vec_unbounded_refuted",
    "C89_first_variable_refuted",
    "C89_unused_angles_refuted"
   ],
   "note": "Refuted: the exception is built but not thrown, so a shorter second parent is read beyond its end; epsilon and sigma are scaled as e*e*range; without bounds the deterministic mutation replaces coordinates by numbers of [-epsilon, epsilon); eoNormalVecMutation(sigma) makes a vector of floor(sigma) zeros and reads beyond its end; the first variable is never rotated and the first n-1 angles are never used."
  },
  {
   "property": "C90",
   "status": "partial",
   "theorems": [
    "C90_det_bit_flip_exactly_k_refuted",
    "C90_uniform_bits_full_range_refuted",
    "C90_idle_sequence_refuted",
    "C90_proportional_in_sequence_refuted",
    "C90_one_to_one_containers_refuted",
    "C90_weak_elitism_keeps_best_refuted",
    "C90_universal_sampling_refuted",
    "C90_ranking_range_refuted"
   ],
   "note": "all eight refuted: a sampling point on a slot boundary; ranking range wrong for every population; the same bit drawn twice; the maximum never drawn; a sequence none of whose operators fires; off-by-one in the saving loop; every other individual skipped; always throws."
  },
  {
   "property": "C91",
   "status": "partial",
   "theorems": [
    "C91_fold_double_refuted"
   ],
   "note": "refuted: folding -191723202 into [0,0.08] leaves the interval."
  },
  {
   "property": "C92",
   "status": "partial",
   "theorems": [
    "C92_reserved_not_resized_refuted",
    "C92_unprotected_read_refuted"
   ],
   "note": "refuted: a package is tested for emptiness without its mutex while the dispatcher writes it; the attribution vector is reserved but never resized, so every access is beyond its size."
  },
  {
   "property": "C93",
   "status": "partial",
   "theorems": [
    "C93_random_bits_refuted",
    "C93_tabu_diversification_refuted",
    "C93_vns_one_heuristic_refuted",
    "C93_vns_second_search_refuted",
    "C93_vns_restart_refuted",
    "C93_shift_twice_refuted",
    "C93_shift_missed_refuted",
    "C93_partition_read_print_refuted",
    "C93_checkpoint_interval_refuted"
   ],
   "note": "all refuted: each adjacent exchange comes twice and the last exchange never; the loop over distances reads out of bounds; readFrom is undefined on every printed partition with something selected; the VNS never ends with one heuristic, keeps its stop flag, and its restart branch is never reached; the counter is incremented per statistic; the best is lost when diversification replaces the solution where no move is admissible."
  },
  {
   "property": "C94",
   "status": "partial",
   "theorems": [
    "C94_royal_tail_refuted",
    "C94_maxsat_partial",
    "C94_maxsat_file_partial",
    "C94_maxsat_first_clause_refuted",
    "C94_maxsat_file_refuted"
   ],
   "note": "proved when clause 0 has no negated literal (random instances) or no clause has one (file instances); refuted otherwise: the sign of literals of clause 0 is lost (-0), and the sign of every literal of a file instance. Refuted: a Royal Road bit after the last whole block reads out of bounds."
  },
  {
   "property": "C95",
   "status": "partial",
   "theorems": [
    "C95_fitdiv_keeps_best_refuted",
    "C95_matrix_second_call_refuted",
    "C95_matrix_smaller_call_refuted",
    "C95_two_mixed_refuted",
    "C95_two_equal_refuted",
    "C95_depth_delete_refuted",
    "C95_roulette_refuted",
    "C95_roulette_biased_refuted"
   ],
   "note": "all refuted by witnesses; the roulette also for every fitness vector that starts with at least the tournament size."
  },
  {
   "property": "C96",
   "status": "partial",
   "theorems": [
    "C96_exhausted_stream_refuted",
    "C96_empty_bits_refuted",
    "C96_dual_fitness_refuted",
    "C96_load_restores_nothing_refuted",
    "C96_save_load_refuted"
   ],
   "note": "all refuted; load changes no object for any file and any state, because the section header is never recognised."
  },
  {
   "property": "C97",
   "status": "partial",
   "theorems": [
    "C97_scalar_operand_refuted",
    "C97_average_refuted",
    "C97_assembled_empty_refuted",
    "C97_push_refuted"
   ],
   "note": "all refuted: scalar operators modify their left operand, averages lose feasibility, the order fails with empty fitnesses, appending a new term writes out of bounds."
  },
  {
   "property": "C98",
   "status": "partial",
   "theorems": [
    "C98_same_tree_refuted",
    "C98_fresh_tree_refuted"
   ],
   "note": "refuted: ancestors keep their sizes and depths, so the tree cannot be saved and loaded; a new tree holds an extra node and stays invalid."
  },
  {
   "property": "C99",
   "status": "partial",
   "theorems": [
    "C99_ring_update_changes_nothing",
    "C99_ring_neighborhoods_are_up_to_date_refuted",
    "C99_ring_of_single_particles_refuted",
    "C99_second_setup_refuted"
   ],
   "note": "refuted: updateNeighborhood changes no neighborhood for any size from 2 to 2^31 (unsigned i = -size+1 starts above the bound), and with size 1 it changes the neighborhood of index k modulo the dimension; a topology already set up keeps its first neighborhoods."
  },
  {
   "property": "C100",
   "status": "proved",
   "theorems": [
    "C100_last_option_wins",
    "C100_value_by_name",
    "C100_white_space_cuts_arguments"
   ],
   "note": "the text-to-value conversion of a parameter type is an arbitrary function"
  },
  {
   "property": "C101",
   "status": "proved",
   "theorems": [
    "C101_file_before_command_line",
    "C101_missing_file_throws",
    "C101_command_line_priority",
    "C101_file_kept"
   ],
   "note": ""
  },
  {
   "property": "C102",
   "status": "proved",
   "theorems": [
    "C102_needs_help_exactly",
    "C102_lone_dash_asks_for_help"
   ],
   "note": ""
  },
  {
   "property": "C103",
   "status": "proved",
   "theorems": [
    "C103_save_and_reload"
   ],
   "note": ""
  },
  {
   "property": "C104",
   "status": "partial",
   "theorems": [
    "C104_command_line_priority_refuted",
    "C104_reload_refuted",
    "C104_reload_blank_value_refuted",
    "C104_set_existing_refuted"
   ],
   "note": "refuted: a short form in the file beats a long form on the command line; parameters not given by the user are printed as comments, so a value set by the program is lost; a value with a blank is cut; setORcreateParam always creates a second parameter and leaves the existing one as it is"
  },
  {
   "property": "C105",
   "status": "proved",
   "theorems": [
    "C105_fitness_is_the_indicator_sum",
    "C105_updates_agree_with_recomputing",
    "C105_updates_possible",
    "C105_epsilon_fitness_respects_domination",
    "C105_hypervolume_fitness_respects_domination",
    "C105_empty_outside",
    "C105_rho_one_outside"
   ],
   "note": "`C105_rho_one_outside` records that with rho = 1 a dominated solution can tie; an empty population is undefined behaviour (`C105_empty_outside`)."
  },
  {
   "property": "C106",
   "status": "proved",
   "theorems": [
    "C106_indicator_is_the_volume_difference",
    "C106_volumes_exist",
    "C106_indicator_range"
   ],
   "note": null
  },
  {
   "property": "C107",
   "status": "proved",
   "theorems": [
    "C107_crowding_distance",
    "C107_extremes_are_infinite",
    "C107_finite_range",
    "C107_constant_objective_outside"
   ],
   "note": "`C107_constant_objective_outside`: an objective that is equal on all solutions yields 0/0, so the diversity is not a number."
  },
  {
   "property": "C108",
   "status": "proved",
   "theorems": [
    "C108_crowding_within_the_front",
    "C108_never_not_a_number"
   ],
   "note": null
  },
  {
   "property": "C109",
   "status": "proved",
   "theorems": [
    "C109_nearest_neighbour",
    "C109_range",
    "C109_rank",
    "C109_single_outside"
   ],
   "note": "`C109_single_outside`: with a single solution the end of an empty list is dereferenced."
  },
  {
   "property": "C110",
   "status": "proved",
   "theorems": [
    "C110_sharing",
    "C110_sharing_within_the_front",
    "C110_never_negative",
    "C110_empty_outside"
   ],
   "note": "`C110_empty_outside`: an empty population writes outside the matrix."
  },
  {
   "property": "C111",
   "status": "proved",
   "theorems": [
    "C111_archive",
    "C111_local_optimum",
    "C111_neighborhoods"
   ],
   "note": null
  },
  {
   "property": "C112",
   "status": "proved",
   "theorems": [
    "C112_turns",
    "C112_returns"
   ],
   "note": null
  },
  {
   "property": "C113",
   "status": "partial",
   "theorems": [
    "C113_replacing_archive_refuted",
    "C113_no_desimproving_refuted",
    "C113_sub_neighborhood_refuted",
    "C113_no_neighbour_refuted",
    "C113_zero_selected_refuted",
    "C113_foreign_result_refuted"
   ],
   "note": "Refuted: with the default archive (which replaces equal vectors by the newer, unvisited copy) two neighbouring members of the front revive each other for ever; moeoNoDesimprovingNeighborhoodExplorer and moeoSimpleSubNeighborhoodExplorer with a neighborhood explored in order find the same neighbours again and never flag; a solution without neighbours is never flagged; moeoNumberUnvisitedSelect(0) selects nothing; moeoDMLSMonOp keeps its archive between applications. C112 has the combinations that do end."
  },
  {
   "property": "C114",
   "status": "proved",
   "theorems": [
    "C114_generation",
    "C114_run"
   ],
   "note": null
  },
  {
   "property": "C115",
   "status": "proved",
   "theorems": [
    "C115_selected",
    "C115_budget",
    "C115_ends"
   ],
   "note": null
  },
  {
   "property": "C116",
   "status": "proved",
   "theorems": [
    "C116_refused",
    "C116_new_operator",
    "C116_reference_stays",
    "C116_all_deleted",
    "C116_previous_is_deleted"
   ],
   "note": null
  },
  {
   "property": "C117",
   "status": "proved",
   "theorems": [
    "C117_restarts"
   ],
   "note": null
  },
  {
   "property": "C118",
   "status": "partial",
   "theorems": [
    "C118_pointer_cache_refuted",
    "C118_pointer_without_argument_refuted",
    "C118_second_name_refuted",
    "C118_fractional_index_refuted",
    "C118_lambda_sticks_refuted"
   ],
   "note": "Refuted: the cached instantiate_ptr tests the other pointer, so it makes a new operator each time, or returns an empty pointer once instantiate was called; the no-argument forge always returns an empty shared pointer; std::map::insert ignores a second forge of the same name; the fractional index is asserted the wrong way round and truncated; the 0 size is overwritten at the first call. Also noticed, outside the model: eoForgeMap::setup cannot be instantiated, eoForgeScalar's min/max setters assert the old bounds, eoEvalFoundryFastGA uses a missing size() and maps 1.0 to an index past the end."
  },
  {
   "property": "C119",
   "status": "proved",
   "theorems": [
    "C119_sort",
    "C119_truncate",
    "C119_cache",
    "C119_call",
    "C119_deterministic_tournament",
    "C119_stochastic_tournament",
    "C119_roulette",
    "C119_debug"
   ],
   "note": null
  },
  {
   "property": "C120",
   "status": "proved",
   "theorems": [
    "C120_line",
    "C120_shares",
    "C120_order"
   ],
   "note": null
  },
  {
   "property": "C121",
   "status": "proved",
   "theorems": [
    "C121_sharing",
    "C121_alone",
    "C121_at_least_one",
    "C121_too_small"
   ],
   "note": null
  },
  {
   "property": "C122",
   "status": "proved",
   "theorems": [
    "C122_many_objectives",
    "C122_two_objectives",
    "C122_two_objectives_without_copies",
    "C122_dominated_is_worse",
    "C122_one_objective",
    "C122_nsga_penalty",
    "C122_nsga2_penalty",
    "C122_nsga",
    "C122_nsga2"
   ],
   "note": null
  },
  {
   "property": "C123",
   "status": "partial",
   "theorems": [
    "C123_single_member_front_refuted",
    "C123_resize_keeps_old_worths_refuted",
    "C123_throwing_computation_refuted",
    "C123_truncated_shares_refuted",
    "C123_equal_fitnesses_are_nan"
   ],
   "note": "Refuted: the single member of a front is counted as both extremes, gets the penalty -m for m objectives, and the division by max+1 turns it into a rank above the next fronts: on (0,0), (1,2), (2,1), all minimised, the dominating individual gets worth 0 and the others 1. Resizing keeps the cache in step with worths computed for a larger population. The cache takes the new fitnesses before the computation, so after an exception the old worths are used. Truncation at 0 makes the sum larger than 1, so the best gets less than pressure/n; equal fitnesses make all the worths NaN. Also noticed, outside the model: eoNoPerf2Worth cannot be compiled, eoParetoFitness.h is not in the repository, rank_to_worth reads the maximum of an empty vector, eoNDSorting_I compares a squared distance with the niche size."
  },
  {
   "property": "C124",
   "status": "proved",
   "theorems": [
    "C124_archive_invariant",
    "C124_offer",
    "C124_answer",
    "C124_population"
   ],
   "note": null
  },
  {
   "property": "C125",
   "status": "proved",
   "theorems": [
    "C125_front"
   ],
   "note": null
  },
  {
   "property": "C126",
   "status": "partial",
   "theorems": [
    "C126_offer_defined_partial",
    "C126_past_the_end",
    "C126_always_defined_refuted",
    "C126_large_contributions_refuted"
   ],
   "note": "Refuted: with a full archive, a solution incomparable with all members whose second objective falls between the last two members makes computeTmp read the element past end(); and when all the contributions reach maxValue the search for the least one returns end(), which is then erased. Proved (C126_offer_defined_partial): with contributions below maxValue the first case is the only undefined one; C126_past_the_end: it is always undefined."
  },
  {
   "property": "C127",
   "status": "proved",
   "theorems": [
    "C127_members",
    "C127_offer",
    "C127_incomparable",
    "C127_filtre",
    "C127_closest"
   ],
   "note": null
  },
  {
   "property": "C128",
   "status": "partial",
   "theorems": [
    "C128_true_when_nondominated_refuted",
    "C128_false_when_dominated_refuted",
    "C128_no_duplicates_refuted",
    "C128_nothing_lost_refuted"
   ],
   "note": "Refuted: when all members share a value the scale of that objective divides by zero, its corners are NaN, no box equals another and a dominated solution is taken with answer true, or the same one twice; with three objectives (0,5,5), (5,0,5), (5,5,0) refuse (1,1,6), worse than the nadir on one objective only; offering the member (0,4,6) of {(0,4,6),(1,0,3),(4,6,0)} again removes it (same box) and is then refused because the box of (1,0,3) dominates. Also noticed, outside the model: the answer for a population starts from an uninitialised variable; the distance to the corner compares raw objective values with box numbers; moeoEuclideanDistance keeps a reference to a normalizer passed by value."
  },
  {
   "property": "C129",
   "status": "proved",
   "theorems": [
    "C129_filling",
    "C129_full",
    "C129_size"
   ],
   "note": null
  },
  {
   "property": "C130",
   "status": "partial",
   "theorems": [
    "C130_empty_population",
    "C130_one_individual",
    "C130_always_defined_refuted",
    "C130_stale_member"
   ],
   "note": "Refuted: copy_pop[j] is read before j is compared with the size, so that an empty population always reads outside the population of a full archive, and operator() on one individual does so exactly when the individual replaces the worst member; with capacity 1 a population of 1, allowed by the documentation, does too. Members keep the fitness they had when they were added: if all are above -1, a population of individuals at most -1 changes nothing, even if the members are now dominated. Also noticed, outside the model: matrice_it is used after erase, which invalidates it."
  },
  {
   "property": "C131",
   "status": "proved",
   "theorems": [
    "C131_neighborhood",
    "C131_all_neighbors"
   ],
   "note": null
  },
  {
   "property": "C132",
   "status": "proved",
   "theorems": [
    "C132_basic",
    "C132_distances",
    "C132_autocorrelation"
   ],
   "note": null
  },
  {
   "property": "C133",
   "status": "partial",
   "theorems": [
    "C133_no_lag_refuted",
    "C133_stale_statistics"
   ],
   "note": "Refuted: with nbS = 0 phi2[1][1] is read outside the matrix for every non-empty data; on a solution without neighbors value() is false but every getter (and the m*NeighborStat built on them) keeps reporting the previous solution, or uninitialised fields at first. Outside the model: nbS >= n divides by zero or wraps n - s; constant data give NaN; samplings such as moAdaptiveWalkSampling pass references to members not yet constructed to the constructor of their base."
  },
  {
   "property": "C134",
   "status": "proved",
   "theorems": [
    "C134_modif",
    "C134_bit",
    "C134_swap",
    "C134_two_opt",
    "C134_shift",
    "C134_invalid"
   ],
   "note": null
  },
  {
   "property": "C135",
   "status": "proved",
   "theorems": [
    "C135_mon_op",
    "C135_mon_op_total",
    "C135_each_number",
    "C135_restart_apply",
    "C135_restart_in_ils",
    "C135_neighborhood_in_ils",
    "C135_all_tried",
    "C135_neighborhood_apply",
    "C135_random_search"
   ],
   "note": null
  },
  {
   "property": "C136",
   "status": "partial",
   "theorems": [
    "C136_counter_after_move_refuted",
    "C136_no_move_counts_all_refuted",
    "C136_skips_first_neighbor_refuted",
    "C136_maximum_never_refuted",
    "C136_one_solution_refuted"
   ],
   "note": "Refuted: moILSexplorer::updateParam calls update after add (there is no else), so that after an acceptance the counter is 1, a restart comes one turn early, nbNoMove is the number of all the turns, and the neighbor applied first after a move is the second one. The maximum of moMonOpPerturb is excluded. moRandomSearch with nbSolMax = 1 visits two solutions."
  },
  {
   "property": "C137",
   "status": "proved",
   "theorems": [
    "C137_bound",
    "C137_uniform",
    "C137_rng",
    "C137_floor_ceil",
    "C137_round",
    "C137_modulo",
    "C137_dispatch",
    "C137_dispatch_local",
    "C137_dispatch_one",
    "C137_dispatch_in_turn",
    "C137_dispatch_out_of_range",
    "C137_sampler_feasible"
   ],
   "note": null
  },
  {
   "property": "C138",
   "status": "proved",
   "theorems": [
    "C138_uniform_estimator",
    "C138_uniform_sampler",
    "C138_binomial_estimator",
    "C138_binomial_agreement",
    "C138_normal_estimator",
    "C138_multi_estimator",
    "C138_empty_outside"
   ],
   "note": null
  },
  {
   "property": "C139",
   "status": "proved",
   "theorems": [
    "C139_llt",
    "C139_ldlt",
    "C139_unique",
    "C139_sampler_moments",
    "C139_empty_outside",
    "C139_changed_pivots_outside"
   ],
   "note": "Uses the axioms of the standard library's real numbers."
  },
  {
   "property": "C140",
   "status": "proved",
   "theorems": [
    "C140_evaluated",
    "C140_stop",
    "C140_size",
    "C140_ends",
    "C140_uniform_box",
    "C140_combined"
   ],
   "note": null
  },
  {
   "property": "C141",
   "status": "partial",
   "theorems": [
    "C141_edasa_refuted",
    "C141_bounder_stale_refuted",
    "C141_not_centred_refuted",
    "C141_center_refuted"
   ],
   "note": "Refuted: edoEDASA accepts every candidate, since exp(|difference| / temperature) is at least 1; the bounders move the solution without invalidating it; the matrix of edoEstimatorNormalMulti is that of the products, not centred; edoUniformCenter reads temporaries through dangling references, and the normal centers assign to a copy."
  },
  {
   "property": "C142",
   "status": "proved",
   "theorems": [
    "C142_contribution_range",
    "C142_contribution_complement",
    "C142_contribution_itself",
    "C142_contribution_one",
    "C142_contribution_share",
    "C142_additive_least",
    "C142_additive_normalized",
    "C142_additive_sign",
    "C142_additive_triangle",
    "C142_multiplicative_least",
    "C142_multiplicative_refuses",
    "C142_empty_outside",
    "C142_remove_dominated",
    "C142_union",
    "C142_niche",
    "C142_normalize"
   ],
   "note": "On empty sets the epsilon indicators read an uninitialised variable (C142_empty_outside)."
  },
  {
   "property": "C143",
   "status": "partial",
   "theorems": [
    "C143_common_vectors_refuted",
    "C143_constant_objective_refuted",
    "C143_negative_values_refuted",
    "C143_entropy_refuted"
   ],
   "note": "Refuted. A vector of both sets is counted as common and as incomparable: {a,b} against {a} gives 5/8 and not 3/4. An objective that is constant over both sets is ignored after the first (the indicator is then negative although no vector is strictly better everywhere), and makes the result NaN when it is the first. On negative values the multiplicative indicator is inverted. In the entropy a parenthesis is misplaced, log((n/C)/log 2): two isolated vectors give about 0.33 and not 1."
  },
  {
   "property": "C144",
   "status": "proved",
   "theorems": [
    "C144_aggregation",
    "C144_aggregation_value",
    "C144_few_weights",
    "C144_achievement",
    "C144_shortfalls",
    "C144_augmented_achievement",
    "C144_chebychev",
    "C144_achievement_fitness",
    "C144_metric_fitness",
    "C144_normalizer"
   ],
   "note": ""
  },
  {
   "property": "C145",
   "status": "proved",
   "theorems": [
    "C145_qexplore",
    "C145_one_direction",
    "C145_both_directions",
    "C145_anytime",
    "C145_dicho",
    "C145_rand",
    "C145_dummy",
    "C145_augmented"
   ],
   "note": "The division 0/0 of the random strategy (all draws 0) is excluded by hypothesis."
  },
  {
   "property": "C146",
   "status": "partial",
   "theorems": [
    "C146_augmented_refuted",
    "C146_maximised_refuted",
    "C146_normalizer_refuted",
    "C146_both_refuted",
    "C146_dicho_refuted",
    "C146_anytime_refuted",
    "C146_augmented_explore_refuted",
    "C146_chebychev_refuted"
   ],
   "note": "Refuted. Sum and maximum are exchanged in the augmented achievement function; the weighted Chebychev distance is a weighted sum for every rho; the achievement fitness ranks maximised objectives backwards; the normalizer argument of one constructor is ignored; after a pass the two-direction strategy restarts from the other end; the dichotomic strategy uses an iterator that was never set or was lost when the archive falls back to one member; halving gives 1/2 again at the 8th call; the augmented Q-explore never gives a single objective, (1/2,1/2) or (1/2,1/4,1/4)."
  },
  {
   "property": "C147",
   "status": "proved",
   "theorems": [
    "C147_quick_front",
    "C147_quick_answers",
    "C147_quick_ask",
    "C147_quad_front",
    "C147_quad_antichain",
    "C147_quad_answers"
   ],
   "note": "The comparison constant 1e-6 of the quad tree and the tolerance of the vectors are 0 here; see C148 for other values."
  },
  {
   "property": "C148",
   "status": "partial",
   "theorems": [
    "C148_quad_three_refuted",
    "C148_indexed_quad_refuted",
    "C148_indexed_quick_refuted",
    "C148_ghost_refuted",
    "C148_precision_refuted",
    "C148_quadtree_archive_refuted"
   ],
   "note": "Refuted. With three objectives the removal of a node drops its last subtree; the node stores a position one too small, so the indexed archive removes a non-dominated vector and keeps the dominated one; the update of the quick index inserts a deleted vector again, which leads to a write outside of the archive; a vector less than 1e-6 better in one objective is refused although nothing dominates it; the quad tree archive keeps nothing."
  },
  {
   "property": "C149",
   "status": "proved",
   "theorems": [
    "C149_elitist_step",
    "C149_nsga2_run",
    "C149_nsga2_total",
    "C149_easy_run",
    "C149_easy_size",
    "C149_seea_run",
    "C149_seea_crossover_mutation",
    "C149_aseea_run",
    "C149_spea2_run"
   ],
   "note": "Runs that throw because a component throws are outside; directions that differ with two objectives are the subject of C95."
  },
  {
   "property": "C150",
   "status": "partial",
   "theorems": [
    "C150_seea_transform_refuted",
    "C150_seea_transform_never_called_refuted",
    "C150_aseea_population_refuted"
   ],
   "note": "Refuted. operator() of moeoSEEA calls genBreed, which the constructors with a transform bind to cloning operators: the transform is never called, every offspring is a copy of the initial population or archive, and the final archive represents their front alone. moeoASEEA resizes the population to 0 in every generation."
  },
  {
   "property": "C151",
   "status": "proved",
   "theorems": [
    "C151_add",
    "C151_add_anywhere",
    "C151_add_total",
    "C151_del",
    "C151_del_anywhere",
    "C151_del_total",
    "C151_sizes_for_life",
    "C151_exchange",
    "C151_exchange_uniform",
    "C151_exchange_first_trial",
    "C151_inner",
    "C151_uniform_quad",
    "C151_uniform_bin",
    "C151_uniform_bin_no",
    "C151_all_mutation",
    "C151_all_mutation_report",
    "C151_k_mutation",
    "C151_k_mutation_total",
    "C151_k_mutation_empty_outside",
    "C151_combination"
   ],
   "note": "Holds for every limit on the number of trials (10000 in the code). A success at the very last allowed trial is reported as a failure by the code, and modelled so. eoFlOrKMutation on a chromosome without genes is undefined (C151_k_mutation_empty_outside). Not modelled: eoFlOrBinOp.h and eoFlOrQuadOp.h, which no compiler accepts (constructors named after other classes, rng.filp), and eoPropCombinedBinOp, whose operator() returns void where the base returns bool."
  },
  {
   "property": "C152",
   "status": "partial",
   "theorems": [
    "C152_uniform_quad_conserves_genes_refuted",
    "C152_uniform_bin_unchanged_refuted"
   ],
   "note": "Refuted. eoVlUniformQuadOp does not clear its temporaries between trials: after an unsuccessful trial the children can contain every gene twice (C152_uniform_quad_conserves_genes_refuted; C151_uniform_quad gives the exact number of copies). eoVlUniformBinOp answers false after having replaced the chromosome by the other parent (C152_uniform_bin_unchanged_refuted), so that eoBinGenOp and eoSGATransform keep the stale fitness; the comment in the code says so too."
  },
  {
   "property": "C153",
   "status": "proved",
   "theorems": [
    "C153_cellular_run",
    "C153_cellular_never_worse",
    "C153_cellular_every_cell",
    "C153_cellular_genotypes",
    "C153_cellular_evaluations",
    "C153_cellular_unevaluated_outside",
    "C153_eda_run"
   ],
   "note": "The cellular algorithm never evaluates the population it is given (its popEval is unused): C153_cellular_unevaluated_outside. The constructor taking an eoBinOp binds a reference to a temporary selector and cannot be compiled; the model is the other one."
  },
  {
   "property": "C154",
   "status": "proved",
   "theorems": [
    "C154_not_finite",
    "C154_not_finite_total",
    "C154_time_out",
    "C154_time_out_iff",
    "C154_time_continue",
    "C154_time_stops_for_good",
    "C154_timer",
    "C154_timed_monitor"
   ],
   "note": "eoEvalTimeThrowException is the same code with another clock, but calls the inherited member func without this-> and is rejected by compilers with two-phase lookup; eoInvertedContinue initializes a member it does not declare and cannot be compiled at all."
  },
  {
   "property": "C155",
   "status": "partial",
   "theorems": [
    "C155_counts_evaluations_refuted",
    "C155_timed_monitor_fires_refuted",
    "C155_time_counter_forward_refuted"
   ],
   "note": "Refuted. The time-limited evaluation overrides operator() of the counter without counting (C155_counts_evaluations_refuted), so eoEvalContinue on it never stops. eoTimedMonitor cuts the elapsed ticks to 32 bits: with CLOCKS_PER_SEC = 1000000 a period of 4295 s or more is never reached after the first call (C155_timed_monitor_fires_refuted). eoTimeCounter switches from processor time to wall-clock time after 2140 s and can jump back (C155_time_counter_forward_refuted)."
  },
  {
   "property": "C156",
   "status": "proved",
   "theorems": [
    "C156_same_search",
    "C156_added",
    "C156_columns",
    "C156_counter",
    "C156_minus_one_counter",
    "C156_copied_stat",
    "C156_export",
    "C156_export_column"
   ],
   "note": "The checkpoint calls its statistics at every turn (interval 1). Formatting of numbers is not modelled: a value is the text getValue makes of it. An export without any monitor reads monitorVec[0] of an empty vector (UB in the model)."
  },
  {
   "property": "C157",
   "status": "proved",
   "theorems": [
    "C157_density",
    "C157_fdc",
    "C157_autocorrelation",
    "C157_hill_climbers",
    "C157_adaptive_walks",
    "C157_random_best_cloud",
    "C157_random_random_cloud",
    "C157_neutral_degree",
    "C157_metropolis_best_cloud",
    "C157_metropolis_random_cloud"
   ],
   "note": "The statistics on neighborhoods use their own random draws in the model. The Metropolis-Hastings clouds are stated for positive fitnesses, as C70's annealing. The column of the numbers of evaluations of moAdaptiveWalkSampling and moNeutralWalkSampling are not modelled. A solution without neighbors has a default fitness in the clouds, and is excluded from the neutral degree (C158)."
  },
  {
   "property": "C158",
   "status": "partial",
   "theorems": [
    "C158_sample_size_refuted",
    "C158_walk_steps_refuted",
    "C158_neutral_degree_refuted",
    "C158_first_degree_uninitialised"
   ],
   "note": "Refuted. A local search always makes one turn: a sample of one solution has two (C158_sample_size_refuted) and a walk of no step makes one (C158_walk_steps_refuted). moNeighborhoodStat leaves nb_equal as it was when there is no neighbor: the neutral degree repeats that of the former solution (C158_neutral_degree_refuted), and is uninitialised for the first one (C158_first_degree_uninitialised)."
  },
  {
   "property": "C159",
   "status": "proved",
   "theorems": [
    "C159_trees",
    "C159_every_tree",
    "C159_safe",
    "C159_ends",
    "C159_constructor"
   ],
   "note": "The rank of an argument in the tree is the rank used when it was generated, although nodes are added in front of the sequence: the construction reads it from the end. Depth 0 is outside the quantifier (C161_depth_zero_outside), and a type without trees makes the loop endless (C161_no_tree_outside)."
  },
  {
   "property": "C160",
   "status": "proved",
   "theorems": [
    "C160_crossover",
    "C160_crossover_any",
    "C160_branch",
    "C160_hoist",
    "C160_point",
    "C160_point_any"
   ],
   "note": "The file includes <map.h>, which is not a standard header; it is modelled as if it included <map>."
  },
  {
   "property": "C161",
   "status": "partial",
   "theorems": [
    "C161_point_refuted",
    "C161_size_refuted",
    "C161_full_refuted",
    "C161_depth_zero_outside",
    "C161_no_tree_outside"
   ],
   "note": "Refuted. The point mutation looks at the type returned and the arity only, so choose(bool, number) can become add(number, number) over the same arguments: the result is ill typed. max_length is stored and never used: two trees of 3 nodes give one of 5 for every maximum. In full mode a type that only terminals have makes generate read node[type][NONTERMINAL][0] of an empty vector (UB), although well-typed trees within the depth exist and the grow mode makes them."
  },
  {
   "property": "C162",
   "status": "proved",
   "theorems": [
    "C162_value",
    "C162_path",
    "C162_no_shortcut",
    "C162_one_optimum",
    "C162_other_length_outside"
   ],
   "note": "32-bit arithmetic is modelled; the hypothesis says the ranks fit. Other lengths read outside the string (C162_other_length_outside)."
  },
  {
   "property": "C163",
   "status": "proved",
   "theorems": [
    "C163_queens",
    "C163_queens_solved",
    "C163_queens_empty_outside",
    "C163_blocks",
    "C163_blocks_best",
    "C163_nk_instance",
    "C163_nkp_instance",
    "C163_nkq_instance",
    "C163_nkp_zero"
   ],
   "note": "Exact rationals for doubles. The empty board makes the queen evaluation loop for ever (C163_queens_empty_outside)."
  },
  {
   "property": "C164",
   "status": "partial",
   "theorems": [
    "C164_load_refuted",
    "C164_saved_refuted",
    "C164_comments_outside",
    "C164_nkq_one_refuted"
   ],
   "note": "Refuted: after the parameters load tests whether the word read before them, the magic word NK, NKp or NKq, begins with p, so it throws on every file whatsoever (C164_load_refuted) and on every saved one (C164_saved_refuted). A file that holds only comments is read for ever (C164_comments_outside). NKq with q = 1 divides 0 by 0 (C164_nkq_one_refuted)."
  },
  {
   "property": "C165",
   "status": "proved",
   "theorems": [
    "C165_particles_remember_their_best",
    "C165_global_best",
    "C165_runs_to_the_end",
    "C165_empty_is_refused"
   ],
   "note": "A second setup is ignored by the code: C167."
  },
  {
   "property": "C166",
   "status": "proved",
   "theorems": [
    "C166_variable_weight",
    "C166_constricted_variable_weight",
    "C166_fixed_weight",
    "C166_decaying_bounds",
    "C166_velocities_work",
    "C166_integer_velocity",
    "C166_linear_weight",
    "C166_linear_weight_range",
    "C166_random_weight",
    "C166_binary_flight",
    "C166_binary_flight_works",
    "C166_binary_flight_monotone"
   ],
   "note": "Exact rationals for doubles; the sigmoid is any non-decreasing function. pow(t/Nt, alpha) is a number given to the modifier."
  },
  {
   "property": "C167",
   "status": "partial",
   "theorems": [
    "C167_maximum_shrinks_at_each_call",
    "C167_decaying_bounds_refuted",
    "C167_integer_velocity_refuted",
    "C167_integer_velocity_ignores_its_modifier",
    "C167_linear_weight_after_the_end",
    "C167_weight_decreases_refuted",
    "C167_second_setup_refuted"
   ],
   "note": "Refuted: the modifier multiplies the maximum already reduced, and is called once per particle, so after k particles of one iteration the maximum is the k-th power of the factor times the first one (C167_maximum_shrinks_at_each_call, C167_decaying_bounds_refuted). The bounds are checked after the rounding, so a fractional bound gives a fractional velocity (C167_integer_velocity_refuted), and the bound modifier given to the integer velocity is never called. One iteration after the last one stop - counter wraps and the weight is far above the initial one (C167_linear_weight_after_the_end, C167_weight_decreases_refuted). A second setup is ignored (C167_second_setup_refuted)."
  },
  {
   "property": "C168",
   "status": "proved",
   "theorems": [
    "C168_dtlz1_values",
    "C168_dtlz1_front",
    "C168_dtlz2_values",
    "C168_dtlz2_front",
    "C168_dtlz3_values",
    "C168_dtlz3_front",
    "C168_dtlz4_values",
    "C168_dtlz4_front",
    "C168_dtlz5_values",
    "C168_dtlz5_front",
    "C168_dtlz6_values",
    "C168_dtlz6_front",
    "C168_dtlz7_values",
    "C168_dtlz7_front",
    "C168_variables_missing_outside",
    "C168_single_objective_outside"
   ],
   "note": "DTLZ5 and DTLZ6: only that the vectors at distance 0 are optimal (others can be too). DTLZ7: only that optimal vectors are at distance 0 (its front is disconnected). The pi and pow of the code are the real ones."
  },
  {
   "property": "C169",
   "status": "proved",
   "theorems": [
    "C169_sbx",
    "C169_sbx_children",
    "C169_sbx_works",
    "C169_polynomial",
    "C169_polynomial_moves",
    "C169_polynomial_works"
   ],
   "note": ""
  },
  {
   "property": "C170",
   "status": "partial",
   "theorems": [
    "C170_no_bounds_refuted",
    "C170_stuck_on_a_bound",
    "C170_change_is_reported_refuted"
   ],
   "note": "Refuted. Without bounds the crossover throws as soon as the parents differ by more than 1e-14 somewhere (it asks for the minimum of an unbounded variable). A variable lying on one of its bounds is never moved by the mutation, whatever is drawn (delta_max is 0), yet true is returned."
  },
  {
   "property": "C171",
   "status": "proved",
   "theorems": [
    "C171_target_is_cut",
    "C171_stops_at_the_target",
    "C171_stops_with_reference",
    "C171_nothing_to_compare"
   ],
   "note": "Doubles are exact rationals: with rounding the equality to 0 of the code can fail on equal fronts."
  },
  {
   "property": "C172",
   "status": "partial",
   "theorems": [
    "C172_stops_elsewhere_refuted",
    "C172_goes_on_past_the_target_refuted",
    "C172_dual_flag_unset_refuted",
    "C172_dual_stops_on_feasibility_refuted"
   ],
   "note": "Refuted. Two different fronts of equal hypervolume stop the run although no target vector is reached; an archive that is better than the target has a different hypervolume, so the run goes on. The dual continuator reads the feasibility of the first target vector, which neither its constructor nor that of the vector sets (undefined for every archive); were it set, the run stops as soon as the archive has the other feasibility."
  },
  {
   "property": "C173",
   "status": "proved",
   "theorems": [
    "C173_average",
    "C173_best_values",
    "C173_best_individuals_of_the_first_call",
    "C173_binary_metric",
    "C173_binary_metric_first",
    "C173_constraint_fitness",
    "C173_constraint_monotone",
    "C173_constraint_few_weights"
   ],
   "note": "With fewer weights than objectives the fitness is 0 (the code prints a message)."
  },
  {
   "property": "C174",
   "status": "partial",
   "theorems": [
    "C174_individuals_of_the_first_call_refuted",
    "C174_out_of_range_accepted_refuted"
   ],
   "note": "Refuted. Each call appends its individuals after those of the previous ones, so that the individuals of the first call are given for ever (and are iterators into a population that may be gone). The number of objectives itself passes the check: the read is past the end after one call."
  },
  {
   "property": "C175",
   "status": "proved",
   "theorems": [
    "C175_blocks_never_overlap",
    "C175_no_block_is_lost",
    "C175_destructor_frees_every_chunk",
    "C175_alignment",
    "C175_children"
   ],
   "note": "The pools are the static members the library uses: a pool that is a local object starts with uninitialised pointers. Not thread safe (the code says so)."
  },
  {
   "property": "C176",
   "status": "partial",
   "theorems": [
    "C176_large_elements_refuted",
    "C176_misaligned_refuted",
    "C176_third_child_refuted"
   ],
   "note": "Refuted. Every first allocation of an element larger than a chunk (8176 bytes; three children of more than 2725 bytes each) writes out of the array; an element of 12 bytes puts links of 8 bytes at addresses that are not multiples of 8; Tree_alloc::construct with three children builds the second one twice and leaves the third one unbuilt although deallocate destroys it (construct is not called by the library)."
  },
  {
   "property": "C177",
   "status": "proved",
   "theorems": [
    "C177_accepted_files",
    "C177_other_files_throw",
    "C177_booleans",
    "C177_probabilities",
    "C177_line_numbers",
    "C177_boolean_neighbors",
    "C177_stochastic_neighbors",
    "C177_isolate",
    "C177_isolated_has_no_neighbor",
    "C177_table",
    "C177_fresh_pairs"
   ],
   "note": "Opening the file, the parsing of a word and numeric overflow are not modelled. Bimap::removeFromRight/Left do not compile when instantiated and are not modelled."
  },
  {
   "property": "C178",
   "status": "partial",
   "theorems": [
    "C178_any_number_of_nodes_refuted",
    "C178_islands_out_of_the_matrix",
    "C178_blank_first_line_refuted",
    "C178_known_key_refuted",
    "C178_stops_at_the_second_call",
    "C178_shared_continue_refuted",
    "C178_reaching_is_not_shared"
   ],
   "note": "Refuted. The number of islands is only checked by an assertion: without assertions every number is accepted and the neighbours of an island beyond the matrix are read out of bounds. A blank first line makes the file rejected. Adding a known key again leaves a stale pair in the other direction. SharedFitContinue stores \"go on\" as \"found\": after any first call that has not reached the optimum every later call answers stop, and an island that reaches the optimum does not stop the others."
  },
  {
   "property": "C179",
   "status": "proved",
   "theorems": [
    "C179_hamming",
    "C179_manhattan",
    "C179_euclidean",
    "C179_bits",
    "C179_fitness_distance",
    "C179_correlation",
    "C179_rescaled",
    "C179_perfect",
    "C179_feasible_ratio",
    "C179_assembled",
    "C179_assembled_best",
    "C179_assembled_greatest",
    "C179_scalar",
    "C179_dump",
    "C179_objective"
   ],
   "note": "Doubles are real numbers (rounding, overflow and the sign of zero not modelled); 0/0 is a separate outcome."
  },
  {
   "property": "C180",
   "status": "partial",
   "theorems": [
    "C180_lengths_refuted",
    "C180_shorter_outside",
    "C180_converged_refuted",
    "C180_dump_too_many",
    "C180_all_failed",
    "C180_empty_refuted"
   ],
   "note": "Refuted. With vectors of different lengths the tail of a longer second one is ignored (distance 0 between different vectors) and a shorter second one is read out of bounds; a population with equal fitnesses has correlation 0/0; asking eoPopStat for more individuals than the population has reads beyond it; if every individual has failed the average of a term is 0/0, and an empty population is read out of bounds."
  },
  {
   "property": "C181",
   "status": "proved",
   "theorems": [
    "C181_same_as_sequential",
    "C181_orders_exist",
    "C181_synchronous_swarm",
    "C181_any_schedule",
    "C181_a_synchronous_swarm"
   ],
   "note": "The evaluation is a function of the individual alone (no shared state, no exception in a worker thread), each call one step."
  },
  {
   "property": "C182",
   "status": "partial",
   "theorems": [
    "C182_offspring_not_evaluated",
    "C182_population_evaluation_refuted",
    "C182_not_the_sequential_swarm_refuted"
   ],
   "note": "Refuted. The constructors of eoEasyEA that take an eoPopEvalFunc set eval to a functor that does nothing, and the scheduler applies eval: the offspring are never evaluated. eoEasyPSO updates the neighborhoods after each particle, MWModel<eoEasyPSO> only after all of them, so that a particle no longer sees the improvements of the same turn."
  },
  {
   "property": "C183",
   "status": "proved",
   "theorems": [
    "C183_weights",
    "C183_rates",
    "C183_sizes",
    "C183_stdevs",
    "C183_usable"
   ],
   "note": "Doubles are real numbers."
  },
  {
   "property": "C184",
   "status": "proved",
   "theorems": [
    "C184_storage",
    "C184_square_storage",
    "C184_start",
    "C184_positive_definite",
    "C184_mean",
    "C184_weighted_mean",
    "C184_eigen_system",
    "C184_iterations",
    "C184_sample",
    "C184_path",
    "C184_step_size",
    "C184_translation",
    "C184_fitness_order",
    "C184_breed",
    "C184_covariance_path"
   ],
   "note": "Doubles are real numbers; the tests x == x + y are answered by an arbitrary function (by false in the statements on the step size and on translations). The eigen solver is assumed correct when it goes through all indices, and (see C185) never to be stopped by its limit in the middle of one."
  },
  {
   "property": "C185",
   "status": "partial",
   "theorems": [
    "C185_weighting_names_refuted",
    "C185_more_parents_refuted",
    "C185_fewer_parents_refuted",
    "C185_unfinished_success_refuted",
    "C185_failure_spoils_refuted",
    "C185_minimum_refuted"
   ],
   "note": "Refuted. The cases 1 and 2 of the weighting are exchanged. The weights are never resized after the option mu is read: more parents than the default are read past the end of the weights, with fewer the used weights do not sum to 1 (all parents at x give the mean x/2). QLalgo returns maxIter-1 when its limit stops it, which updateEigenSystem takes for success; a run that finishes with exactly maxIter iterations is taken for a failure and leaves the eigenvalues in the place of their square roots. A coordinate below its minimum only causes one multiplication of sigma and can stay below."
  },
  {
   "property": "C186",
   "status": "proved",
   "theorems": [
    "C186_search",
    "C186_indices",
    "C186_penalised",
    "C186_already_evaluated",
    "C186_report",
    "C186_generation",
    "C186_ends",
    "C186_history"
   ],
   "note": "numbers that are infinite, NaN or beyond size_t are not modelled; _subpb_eval(pop,pop) is modelled with no parents, as eoPopLoopEval ignores them; private state of operators other than continuators is in the world, as the foundry caches them"
  },
  {
   "property": "C187",
   "status": "partial",
   "theorems": [
    "C187_default_refuted",
    "C187_negative_refuted",
    "C187_undefined_refuted",
    "C187_share_refuted"
   ],
   "note": "Refuted: a new foundry holds no encoding and throws when run (or when at() is used as documented); numbers in (-1,0) select the first operator and numbers of -1 or below are an undefined conversion to size_t, so neither is penalised; ceil makes the first operator reachable by 0 alone and penalises everything above n-1"
  },
  {
   "property": "C188",
   "status": "proved",
   "theorems": [
    "C188_weights",
    "C188_constants",
    "C188_accepts",
    "C188_mean",
    "C188_learning",
    "C188_healthy",
    "C188_runs",
    "C188_decomposition",
    "C188_period",
    "C188_step",
    "C188_sample",
    "C188_reset",
    "C188_conditioning",
    "C188_conditioning_stop"
   ],
   "note": "Doubles are real numbers. The contract of Eigen's solver is a hypothesis of the theorems that need it (shown satisfiable in dimensions 1 and 2). Counters below 2^32."
  },
  {
   "property": "C189",
   "status": "partial",
   "theorems": [
    "C189_length_refuted",
    "C189_variance_refuted",
    "C189_conditioning_refuted",
    "C189_dimension_refuted"
   ],
   "note": "Refuted: 1/(4*N) is a quotient of integers, so the reference length is above sqrt(N) in every dimension; the rank-mu learning rate is not capped, and in every dimension a large population at the mean makes all the variances negative and the scaling not a number; the criterion stops at the threshold itself and lets a covariance with a negative eigenvalue go on; the full constructor leaves the dimension uninitialised."
  },
  {
   "property": "C190",
   "status": "proved",
   "theorems": [
    "C190_messages",
    "C190_verbose",
    "C190_verbose_later",
    "C190_more_verbose",
    "C190_names",
    "C190_closing"
   ],
   "note": "Writes are assumed to succeed; the conversion of -1 to the enumeration of levels is taken as compilers do it."
  },
  {
   "property": "C191",
   "status": "proved",
   "theorems": [
    "C191_calls",
    "C191_no_signal_lost",
    "C191_no_evaluation_without_signal",
    "C191_verdicts_in_order",
    "C191_ctrl_c",
    "C191_ctrl_c_before",
    "C191_function"
   ],
   "note": "A delivered signal runs its handler between two elementary steps; the evaluation of the checkpoint is one step (the checkpoint itself is modelled with the stopping criteria). That the handler writes to the logger, which is not async-signal-safe, is not modelled."
  },
  {
   "property": "C192",
   "status": "partial",
   "theorems": [
    "C192_unknown_level_refuted",
    "C192_unopened_file_refuted",
    "C192_other_stream_refuted",
    "C192_files_closed_refuted",
    "C192_quiet_messages_refuted",
    "C192_two_objects_refuted",
    "C192_construction_refuted",
    "C192_wrapped_criterion_refuted",
    "C192_never_stops_refuted",
    "C192_lost_signal_refuted",
    "C192_second_run_refuted"
   ],
   "note": "Refuted: an unknown level name selects quiet silently; after a failed open every message is lost; other streams are ignored; a file left for another target is never closed; quiet messages show at every level; two eoSignal objects share one flag and only the first called reacts; constructing one drops a waiting signal; the wrapped criterion is only asked after a signal; eoSIGContinue always returns true and loses a signal that comes during its function; eoCtrlCContinue cannot be built twice in a process."
  },
  {
   "property": "C193",
   "status": "proved",
   "theorems": [
    "C193_freed_once",
    "C193_pack_safe",
    "C193_stored_twice"
   ],
   "note": "Destructors of the functors themselves are not modelled. Addresses are never reused while the program runs."
  },
  {
   "property": "C194",
   "status": "proved",
   "theorems": [
    "C194_file_monitor",
    "C194_file_monitor_throws",
    "C194_snapshots",
    "C194_dumps",
    "C194_single_dump",
    "C194_stream_monitor"
   ],
   "note": "Values are the texts of getValue; writes to an opened file are assumed to succeed; directories are taken as existing."
  },
  {
   "property": "C195",
   "status": "partial",
   "theorems": [
    "C195_third_vector_refuted",
    "C195_nothing_registered_refuted",
    "C195_keep_refuted",
    "C195_lost_dump_refuted",
    "C195_aligned_header_refuted",
    "C195_stream_left_refuted",
    "C195_timed_names_refuted"
   ],
   "note": "Refuted: from the third vector on, a snapshot writes the second one again and never looks at the others; 'if true, overwrite any existing file' keeps it and drops the header; the first name of a stream monitor is not padded, and the width left pending pads the next output of the program; without assertions a dump that cannot be opened is lost silently; with a null interval two states are saved under one name; with no parameter the first element of an empty vector is read."
  },
  {
   "property": "C196",
   "status": "proved",
   "theorems": [
    "C196_counter",
    "C196_incrementor",
    "C196_counted_update",
    "C196_timed_update",
    "C196_timed_apart"
   ],
   "note": "Integers do not overflow."
  },
  {
   "property": "C197",
   "status": "proved",
   "theorems": [
    "C197_selection_or_throw",
    "C197_valid_parameters",
    "C197_tournament_size",
    "C197_parameters_used",
    "C197_replacement",
    "C197_status_file"
   ],
   "note": ""
  },
  {
   "property": "C198",
   "status": "partial",
   "theorems": [
    "C198_replacement_size_refuted",
    "C198_promise_refuted",
    "C198_no_argument_refuted",
    "C198_status_file_refuted",
    "C198_nan_refuted",
    "C198_best_retained_refuted",
    "C198_no_rates_refuted"
   ],
   "note": "Refuted: EPTour, SSGADet and SSGAStoch read the argument of the selection instead of the one of the replacement (so that DetTour(2) with EPTour(10) makes an EP tournament of 2), and read past the end when the selection has no argument; the default argument put back changes the replacement when it is read again; the first individuals loaded are kept, not the best; a NaN pressure is accepted; null rates only print a warning and applying the operator then reads past the end."
  },
  {
   "property": "C199",
   "status": "proved",
   "theorems": [
    "C199_initial_population",
    "C199_fresh_individuals"
   ],
   "note": ""
  },
  {
   "property": "C200",
   "status": "proved",
   "theorems": [
    "C200_stopping",
    "C200_throws",
    "C200_generations"
   ],
   "note": ""
  },
  {
   "property": "C201",
   "status": "proved",
   "theorems": [
    "C201_reduction",
    "C201_reduction_built",
    "C201_reduction_rate",
    "C201_operator_throws",
    "C201_one_application",
    "C201_crossover_probability"
   ],
   "note": ""
  },
  {
   "property": "C202",
   "status": "proved",
   "theorems": [
    "C202_all_runs",
    "C202_no_deadlock",
    "C202_same_tasks",
    "C202_seeds",
    "C202_seeds_total",
    "C202_multiples",
    "C202_distinct_seeds",
    "C202_number"
   ],
   "note": ""
  },
  {
   "property": "C203",
   "status": "partial",
   "theorems": [
    "C203_seeds_differ_refuted",
    "C203_rerunnable_refuted",
    "C203_bests_of_the_job_refuted"
   ],
   "note": "Refuted: the multiples of an even number come again after 2^31 of them, and those of 2^31 after 2; two schedules with the same seeds give different results when the workers do not get the same numbers of runs; nothing clears the best individuals of the jobs before."
  },
  {
   "property": "C204",
   "status": "proved",
   "theorems": [
    "C204_counts",
    "C204_wallclock"
   ],
   "note": ""
  },
  {
   "property": "C205",
   "status": "partial",
   "theorems": [
    "C205_cpu_times_partial",
    "C205_stats",
    "C205_microsecond_refuted",
    "C205_overcount_refuted"
   ],
   "note": "Proved for intervals at the end of which the microseconds are not less than at their beginning (C205_cpu_times_partial). Refuted for the others: the borrow is added with the wrong sign, so that twice the difference is counted too much, and intervals of one microsecond each can all be reported as one second."
  },
  {
   "property": "C206",
   "status": "proved",
   "theorems": [
    "C206_in_interval",
    "C206_accepted",
    "C206_accepted_others",
    "C206_one_bound",
    "C206_real_one_bound",
    "C206_onto",
    "C206_fair",
    "C206_unsigned",
    "C206_random",
    "C206_random_below",
    "C206_coin",
    "C206_biased",
    "C206_real",
    "C206_vector"
   ],
   "note": "The real generators are exact rationals; normal and negative exponential generators are not modelled."
  },
  {
   "property": "C207",
   "status": "partial",
   "theorems": [
    "C207_negative_maximum_refuted",
    "C207_equal_bounds_refuted",
    "C207_float_one_refuted",
    "C207_wide_interval_refuted",
    "C207_uniform_bits_refuted"
   ],
   "note": "Refuted: with a negative maximum alone the numbers are in (max, 0]; equal bounds are accepted and give the maximum; the float generator of [0, 1) makes 1 for exactly the 128 last values of the random number generator; two ints more than 2^31 - 1 apart overflow in the constructor; UF_random_generator never makes its max()."
  },
  {
   "property": "C208",
   "status": "proved",
   "theorems": [
    "C208_in_bounds",
    "C208_answer",
    "C208_atoms",
    "C208_truncate_nearest",
    "C208_folds_mirror",
    "C208_answers",
    "C208_quad",
    "C208_init"
   ],
   "note": "values and bounds are exact rationals, bounds are ints"
  },
  {
   "property": "C209",
   "status": "partial",
   "theorems": [
    "C209_longer_refuted",
    "C209_shorter_refuted",
    "C209_changed_refuted"
   ],
   "note": "Refuted. The wrapper never resizes the individual of ints: an operator that lengthens the vector makes it write past the end, and one that shortens it leaves the old ints at the end. It answers a change even if rounding gives back the same individual"
  },
  {
   "property": "C210",
   "status": "proved",
   "theorems": [
    "C210_copy",
    "C210_larger",
    "C210_smaller",
    "C210_nothing",
    "C210_sizes",
    "C210_empty"
   ],
   "note": ""
  },
  {
   "property": "C211",
   "status": "proved",
   "theorems": [
    "C211_finite"
   ],
   "note": "a double is a rational or not finite"
  },
  {
   "property": "C212",
   "status": "partial",
   "theorems": [
    "C212_mean_refuted",
    "C212_mean_ignored_refuted"
   ],
   "note": "Refuted. The mean is not checked, so a distribution with a mean that is NaN goes on"
  },
  {
   "property": "C213",
   "status": "proved",
   "theorems": [
    "C213_valid",
    "C213_command",
    "C213_whole_output",
    "C213_failure",
    "C213_once"
   ],
   "note": "the stream form of individuals and of fitnesses is abstract"
  },
  {
   "property": "C214",
   "status": "partial",
   "theorems": [
    "C214_blank_refuted",
    "C214_not_a_number_refuted",
    "C214_buffer_of_one_refuted",
    "C214_null_refuted"
   ],
   "note": "Refuted. The state of the stream is not checked: a command that prints only blanks gives a fitness that was never set, and one that prints something else than a number gives the fitness 0. With a buffer of one character the loop never ends, and a null character hides what follows it in the buffer"
  },
  {
   "property": "C215",
   "status": "proved",
   "theorems": [
    "C215_fitness",
    "C215_epsilon"
   ],
   "note": "exact arithmetic"
  },
  {
   "property": "C216",
   "status": "partial",
   "theorems": [
    "C216_strict_refuted",
    "C216_deletion_refuted"
   ],
   "note": "Refuted. The epsilon indicator only looks at the worst objective, so a dominated solution may get the same fitness. The update does nothing, although a deletion may move the bounds and then all the fitnesses"
  },
  {
   "property": "C217",
   "status": "proved",
   "theorems": [
    "C217_front",
    "C217_answer",
    "C217_asking",
    "C217_order",
    "C217_archive_of_incomparable",
    "C217_refused"
   ],
   "note": "objective values are integers, for which the tolerance plays no part"
  },
  {
   "property": "C218",
   "status": "partial",
   "theorems": [
    "C218_loses_refuted",
    "C218_past_the_end_refuted",
    "C218_ghost_refuted"
   ],
   "note": "Refuted. Deleting the last member puts its vector back in the index, and a later insertion can then delete a solution that nothing dominates. With two deletions at once the second place may lie past the end. The part that holds, while nothing is deleted, is C217_archive_of_incomparable"
  },
  {
   "property": "C219",
   "status": "proved",
   "theorems": [
    "C219_values",
    "C219_default",
    "C219_manhattan",
    "C219_euclidean",
    "C219_range",
    "C219_fuzzy",
    "C219_expected",
    "C219_bounds",
    "C219_bounds_empty"
   ],
   "note": "doubles are exact rationals; the Euclidean and fuzzy distances are given by the number under the square root"
  },
  {
   "property": "C220",
   "status": "partial",
   "theorems": [
    "C220_range_refuted",
    "C220_default_maximum_refuted",
    "C220_euclidean_normalizer_refuted",
    "C220_fuzzy_refuted"
   ],
   "note": "Refuted. Without normalizer every value is reached; with the one of a population and its default maximum, 100, so is 100 times the number of objectives. The constructor of the Euclidean distance that takes a normalizer keeps a reference to its own parameter, passed by value. Fuzzy vectors with equal expected values have distance 0. The range that holds is C219_range"
  },
  {
   "property": "C221",
   "status": "proved",
   "theorems": [
    "C221_position",
    "C221_fixed",
    "C221_generator",
    "C221_variable"
   ],
   "note": "the warning about a changed size is not modelled"
  },
  {
   "property": "C222",
   "status": "partial",
   "theorems": [
    "C222_fitness_refuted",
    "C222_lengths_refuted"
   ],
   "note": "Refuted. The initializer of a fixed length resizes the position and does not invalidate the fitness; the one of a variable length resizes only the velocities"
  }
 ]
}