{
 "claims": [
  {
   "property": "C01",
   "status": "proved",
   "theorems": [
    "C01_random_pair_distinct",
    "C01_random_pair_panics"
   ],
   "note": ""
  },
  {
   "property": "C02",
   "status": "proved",
   "theorems": [
    "C02_random_pair_uniform"
   ],
   "note": ""
  },
  {
   "property": "C03",
   "status": "proved",
   "theorems": [
    "C03_bounded_range_in_bounds",
    "C03_bounded_range_reaches_all",
    "C03_bounded_range_inverted_panics",
    "C03_bounded_range_too_long_may_panic",
    "C03_random_range_in_bounds",
    "C03_random_range_reaches_all",
    "C03_random_range_zero_panics"
   ],
   "note": ""
  },
  {
   "property": "C04",
   "status": "proved",
   "theorems": [
    "C04_bounded_range_law",
    "C04_random_range_law",
    "C04_uniform_refuted"
   ],
   "note": "Includes a refutation of the stronger claim by witness: C04_uniform_refuted"
  },
  {
   "property": "C05",
   "status": "proved",
   "theorems": [
    "C05_common_neighbors_sound"
   ],
   "note": ""
  },
  {
   "property": "C06",
   "status": "proved",
   "theorems": [
    "C06_common_neighbors_exact",
    "C06_short_genome_refuted"
   ],
   "note": "Includes a refutation of the stronger claim by witness: C06_short_genome_refuted"
  },
  {
   "property": "C07",
   "status": "proved",
   "theorems": [
    "C07_common_partitions",
    "C07_common_partitions_order"
   ],
   "note": ""
  },
  {
   "property": "C08",
   "status": "proved",
   "theorems": [
    "C08_order_refuted",
    "C08_maximal_refuted"
   ],
   "note": "Includes a refutation of the stronger claim by witness: C08_order_refuted, C08_maximal_refuted"
  },
  {
   "property": "C09",
   "status": "proved",
   "theorems": [
    "C09_gpx2_permutation",
    "C09_gpx2_concatenates_partitions",
    "C09_gpx2_follows_selector",
    "C09_gpx2_bad_selector_panics"
   ],
   "note": ""
  },
  {
   "property": "C10",
   "status": "proved",
   "theorems": [
    "C10_gpx2_length_check_refuted"
   ],
   "note": "Includes a refutation of the stronger claim by witness: C10_gpx2_length_check_refuted"
  },
  {
   "property": "C11",
   "status": "proved",
   "theorems": [
    "C11_scx_permutation",
    "C11_scx_bad_pivot_panics"
   ],
   "note": ""
  },
  {
   "property": "C12",
   "status": "proved",
   "theorems": [
    "C12_scx_rule",
    "C12_scx_exact"
   ],
   "note": ""
  },
  {
   "property": "C13",
   "status": "proved",
   "theorems": [
    "C13_erx_permutation",
    "C13_erx_bad_pivot_panics"
   ],
   "note": ""
  },
  {
   "property": "C14",
   "status": "proved",
   "theorems": [
    "C14_erx_rule",
    "C14_erx_exact"
   ],
   "note": ""
  },
  {
   "property": "C15",
   "status": "proved",
   "theorems": [
    "C15_pmx_offspring",
    "C15_pmx_bad_range_panics"
   ],
   "note": ""
  },
  {
   "property": "C16",
   "status": "proved",
   "theorems": [
    "C16_pmx_terminates",
    "C16_pmx_termination_refuted"
   ],
   "note": "Includes a refutation of the stronger claim by witness: C16_pmx_termination_refuted"
  },
  {
   "property": "C17",
   "status": "proved",
   "theorems": [
    "C17_ox_offspring",
    "C17_ox_bad_range_panics"
   ],
   "note": ""
  },
  {
   "property": "C18",
   "status": "proved",
   "theorems": [
    "C18_ox_empty_range",
    "C18_ox_end_range_diverges",
    "C18_ox_every_range_refuted",
    "C18_ox_termination_refuted"
   ],
   "note": "Includes a refutation of the stronger claim by witness: C18_ox_every_range_refuted, C18_ox_termination_refuted"
  },
  {
   "property": "C19",
   "status": "proved",
   "theorems": [
    "C19_cx_offspring"
   ],
   "note": ""
  },
  {
   "property": "C20",
   "status": "proved",
   "theorems": [
    "C20_spx_offspring"
   ],
   "note": ""
  },
  {
   "property": "C21",
   "status": "proved",
   "theorems": [
    "C21_length_mismatch_panics"
   ],
   "note": ""
  },
  {
   "property": "C22",
   "status": "proved",
   "theorems": [
    "C22_crossover_permutation",
    "C22_crossover_single_point",
    "C22_crossover_single_point_reaches_all",
    "C22_crossover_empty_parents"
   ],
   "note": ""
  },
  {
   "property": "C23",
   "status": "proved",
   "theorems": [
    "C23_same_parents"
   ],
   "note": ""
  },
  {
   "property": "C24",
   "status": "proved",
   "theorems": [
    "C24_mutation_permutation"
   ],
   "note": ""
  },
  {
   "property": "C25",
   "status": "proved",
   "theorems": [
    "C25_swap_effect",
    "C25_swap_reaches_all",
    "C25_inversion_effect",
    "C25_inversion_reaches_all",
    "C25_scramble_effect",
    "C25_scramble_reaches_all",
    "C25_insertion_effect",
    "C25_insertion_reaches_all_backward"
   ],
   "note": ""
  },
  {
   "property": "C26",
   "status": "proved",
   "theorems": [
    "C26_duplicate_effect",
    "C26_duplicate_reaches_all"
   ],
   "note": ""
  },
  {
   "property": "C27",
   "status": "proved",
   "theorems": [
    "C27_short_genome_unchanged"
   ],
   "note": ""
  },
  {
   "property": "C28",
   "status": "proved",
   "theorems": [
    "C28_insertion_any_move_refuted",
    "C28_insertion_never_forward"
   ],
   "note": "Includes a refutation of the stronger claim by witness: C28_insertion_any_move_refuted"
  },
  {
   "property": "C29",
   "status": "proved",
   "theorems": [
    "C29_swap_uniform",
    "C29_insertion_law",
    "C29_duplicate_law",
    "C29_inversion_law"
   ],
   "note": ""
  },
  {
   "property": "C30",
   "status": "proved",
   "theorems": [
    "C30_selection_returns_member",
    "C30_selection_empty_population_panics"
   ],
   "note": ""
  },
  {
   "property": "C31",
   "status": "proved",
   "theorems": [
    "C31_tournament_law"
   ],
   "note": ""
  },
  {
   "property": "C32",
   "status": "proved",
   "theorems": [
    "C32_rank_law",
    "C32_rank_no_fall_through"
   ],
   "note": ""
  },
  {
   "property": "C33",
   "status": "proved",
   "theorems": [
    "C33_elitist_bound",
    "C33_elitist_only_top",
    "C33_elitist_uniform"
   ],
   "note": ""
  },
  {
   "property": "C34",
   "status": "proved",
   "theorems": [
    "C34_roulette_rule",
    "C34_roulette_rule_deterministic",
    "C34_roulette_monotone",
    "C34_roulette_prepare"
   ],
   "note": ""
  },
  {
   "property": "C35",
   "status": "proved",
   "theorems": [
    "C35_boltzmann_schedule",
    "C35_boltzmann_prepare",
    "C35_boltzmann_rule",
    "C35_others_unchanged"
   ],
   "note": ""
  },
  {
   "property": "C36",
   "status": "proved",
   "theorems": [
    "C36_cold_boltzmann_selects_least_fit"
   ],
   "note": ""
  },
  {
   "property": "C37",
   "status": "proved",
   "theorems": [
    "C37_linear_safe_biases",
    "C37_linear_safe_with_margin",
    "C37_linear_largest_draw_decides",
    "C37_linear_never_panics_refuted"
   ],
   "note": "Includes a refutation of the stronger claim by witness: C37_linear_never_panics_refuted"
  },
  {
   "property": "C38",
   "status": "proved",
   "theorems": [
    "C38_linear_bias_one_returns_last"
   ],
   "note": ""
  },
  {
   "property": "C39",
   "status": "proved",
   "theorems": [
    "C39_select_distinct_some",
    "C39_select_distinct_none",
    "C39_select_distinct_panics",
    "C39_select_distinct_none_probability"
   ],
   "note": ""
  },
  {
   "property": "C40",
   "status": "proved",
   "theorems": [
    "C40_create_selector_valid",
    "C40_create_selector_invalid",
    "C40_setters"
   ],
   "note": ""
  },
  {
   "property": "C41",
   "status": "proved",
   "theorems": [
    "C41_min_max_exact"
   ],
   "note": ""
  },
  {
   "property": "C42",
   "status": "proved",
   "theorems": [
    "C42_collect_is_record",
    "C42_snapshot",
    "C42_accessors_agree"
   ],
   "note": ""
  },
  {
   "property": "C43",
   "status": "proved",
   "theorems": [
    "C43_welford_exact"
   ],
   "note": ""
  },
  {
   "property": "C44",
   "status": "proved",
   "theorems": [
    "C44_float_stats_sane",
    "C44_unbounded_refuted"
   ],
   "note": "Includes a refutation of the stronger claim by witness: C44_unbounded_refuted"
  },
  {
   "property": "C45",
   "status": "proved",
   "theorems": [
    "C45_empty",
    "C45_single"
   ],
   "note": ""
  },
  {
   "property": "C46",
   "status": "proved",
   "theorems": [
    "C46_new",
    "C46_replace",
    "C46_try_from"
   ],
   "note": ""
  },
  {
   "property": "C47",
   "status": "proved",
   "theorems": [
    "C47_no_adjacent_duplicates",
    "C47_unique_when_fitness_decides",
    "C47_unique_refuted"
   ],
   "note": "Includes a refutation of the stronger claim by witness: C47_unique_refuted"
  },
  {
   "property": "C48",
   "status": "proved",
   "theorems": [
    "C48_fittest"
   ],
   "note": ""
  },
  {
   "property": "C49",
   "status": "proved",
   "theorems": [
    "C49_step",
    "C49_history"
   ],
   "note": ""
  },
  {
   "property": "C50",
   "status": "proved",
   "theorems": [
    "C50_old_returned",
    "C50_catch_is_replace",
    "C50_caught_panic"
   ],
   "note": ""
  },
  {
   "property": "C51",
   "status": "proved",
   "theorems": [
    "C51_total_preorder",
    "C51_wrapper_agrees",
    "C51_nan",
    "C51_transitive_refuted"
   ],
   "note": "Includes a refutation of the stronger claim by witness: C51_transitive_refuted"
  },
  {
   "property": "C52",
   "status": "proved",
   "theorems": [
    "C52_at_least_the_parents",
    "C52_at_least_the_selected",
    "C52_member_or_valid"
   ],
   "note": ""
  },
  {
   "property": "C53",
   "status": "proved",
   "theorems": [
    "C53_calls"
   ],
   "note": ""
  },
  {
   "property": "C54",
   "status": "proved",
   "theorems": [
    "C54_extend_population",
    "C54_extend_population_with"
   ],
   "note": ""
  },
  {
   "property": "C55",
   "status": "proved",
   "theorems": [
    "C55_interpolate_usize",
    "C55_interpolate_f64",
    "C55_interpolate_monotone",
    "C55_end_refuted"
   ],
   "note": "Includes a refutation of the stronger claim by witness: C55_end_refuted"
  },
  {
   "property": "C56",
   "status": "proved",
   "theorems": [
    "C56_ga_configure",
    "C56_aga_configure",
    "C56_defaults",
    "C56_default_values"
   ],
   "note": ""
  },
  {
   "property": "C57",
   "status": "proved",
   "theorems": [
    "C57_select_elites",
    "C57_default_select_elites"
   ],
   "note": ""
  },
  {
   "property": "C58",
   "status": "proved",
   "theorems": [
    "C58_generate_new_population",
    "C58_generate_returns",
    "C58_fills_refuted"
   ],
   "note": "Includes a refutation of the stronger claim by witness: C58_fills_refuted"
  },
  {
   "property": "C59",
   "status": "proved",
   "theorems": [
    "C59_ga_no_result",
    "C59_aga_no_result",
    "C59_ga_panics",
    "C59_aga_panics"
   ],
   "note": ""
  },
  {
   "property": "C60",
   "status": "proved",
   "theorems": [
    "C60_adapted_rates",
    "C60_monotone",
    "C60_both_zero",
    "C60_reversed_ranges",
    "C60_from_zero",
    "C60_from_infinity",
    "C60_from_nan",
    "C60_nan_rates"
   ],
   "note": ""
  },
  {
   "property": "C61",
   "status": "proved",
   "theorems": [
    "C61_rate_history",
    "C61_interval_zero"
   ],
   "note": ""
  },
  {
   "property": "C62",
   "status": "proved",
   "theorems": [
    "C62_ga_independent",
    "C62_aga_independent",
    "C62_aga_independent_runs"
   ],
   "note": ""
  },
  {
   "property": "C63",
   "status": "proved",
   "theorems": [
    "C63_generations",
    "C63_answers",
    "C63_fuel"
   ],
   "note": ""
  },
  {
   "property": "C64",
   "status": "proved",
   "theorems": [
    "C64_ga_populations",
    "C64_aga_populations"
   ],
   "note": ""
  },
  {
   "property": "C65",
   "status": "proved",
   "theorems": [
    "C65_ga_best",
    "C65_aga_best",
    "C65_best_refuted"
   ],
   "note": "Includes a refutation of the stronger claim by witness: C65_best_refuted"
  },
  {
   "property": "C66",
   "status": "proved",
   "theorems": [
    "C66_ga_seed",
    "C66_aga_seed"
   ],
   "note": ""
  },
  {
   "property": "C67",
   "status": "proved",
   "theorems": [
    "C67_ga_total",
    "C67_aga_total",
    "C67_ga_total_runs",
    "C67_aga_total_runs"
   ],
   "note": ""
  },
  {
   "property": "C68",
   "status": "proved",
   "theorems": [
    "C68_onemax_fitness",
    "C68_onemax_order",
    "C68_onemax_empty",
    "C68_onemax_equality",
    "C68_new_keeps_genomes",
    "C68_replace_keeps_genomes"
   ],
   "note": ""
  },
  {
   "property": "C69",
   "status": "proved",
   "theorems": [
    "C69_ga_onemax_runs",
    "C69_aga_onemax_runs",
    "C69_ga_onemax_lengths",
    "C69_aga_onemax_lengths",
    "C69_ga_onemax_empty",
    "C69_aga_onemax_empty"
   ],
   "note": ""
  },
  {
   "property": "C70",
   "status": "proved",
   "theorems": [
    "C70_roulette_proportional"
   ],
   "note": ""
  },
  {
   "property": "C71",
   "status": "proved",
   "theorems": [
    "C71_set_arg_min_max"
   ],
   "note": ""
  },
  {
   "property": "C72",
   "status": "proved",
   "theorems": [
    "C72_nan_samples"
   ],
   "note": ""
  },
  {
   "property": "C73",
   "status": "proved",
   "theorems": [
    "C73_best_survives",
    "C73_best_survives_refuted"
   ],
   "note": "Includes a refutation of the stronger claim by witness: C73_best_survives_refuted"
  },
  {
   "property": "C74",
   "status": "proved",
   "theorems": [
    "C74_rate_probability",
    "C74_mutation_frequency",
    "C74_crossover_frequency"
   ],
   "note": ""
  },
  {
   "property": "C75",
   "status": "proved",
   "theorems": [
    "C75_ga_population_keeps",
    "C75_aga_population_keeps",
    "C75_ga_run_keeps",
    "C75_aga_run_keeps",
    "C75_ga_individual_keeps",
    "C75_aga_individual_keeps"
   ],
   "note": ""
  },
  {
   "property": "C76",
   "status": "proved",
   "theorems": [
    "C76_ga_no_new_bits",
    "C76_aga_no_new_bits",
    "C76_ga_uniform_seed",
    "C76_aga_uniform_seed"
   ],
   "note": ""
  },
  {
   "property": "C77",
   "status": "proved",
   "theorems": [
    "C77_scramble_law",
    "C77_scramble_unchanged",
    "C77_shuffle_uniform"
   ],
   "note": ""
  },
  {
   "property": "C78",
   "status": "proved",
   "theorems": [
    "C78_ga_history",
    "C78_aga_history"
   ],
   "note": ""
  },
  {
   "property": "C79",
   "status": "proved",
   "theorems": [
    "C79_ga_cools",
    "C79_aga_cools"
   ],
   "note": ""
  },
  {
   "property": "C80",
   "status": "proved",
   "theorems": [
    "C80_ga_nothing_new",
    "C80_aga_nothing_new"
   ],
   "note": ""
  },
  {
   "property": "C81",
   "status": "proved",
   "theorems": [
    "C81_ga_no_valid",
    "C81_ga_no_valid_random",
    "C81_ga_no_valid_seed",
    "C81_ga_size_zero",
    "C81_ga_no_result",
    "C81_aga_no_valid",
    "C81_aga_no_valid_random",
    "C81_aga_no_valid_seed",
    "C81_aga_size_zero",
    "C81_aga_no_result"
   ],
   "note": ""
  },
  {
   "property": "C82",
   "status": "proved",
   "theorems": [
    "C82_roulette_shares",
    "C82_boltzmann_shares"
   ],
   "note": ""
  },
  {
   "property": "C83",
   "status": "proved",
   "theorems": [
    "C83_average_accuracy",
    "C83_variance_accuracy"
   ],
   "note": ""
  },
  {
   "property": "C84",
   "status": "proved",
   "theorems": [
    "C84_linear_shares",
    "C84_linear_cumulative",
    "C84_linear_panic_rare"
   ],
   "note": ""
  },
  {
   "property": "C85",
   "status": "proved",
   "theorems": [
    "C85_ga_reaches",
    "C85_onemax_reaches_optimum",
    "C85_onemax_seed_reaches_optimum"
   ],
   "note": ""
  },
  {
   "property": "C86",
   "status": "proved",
   "theorems": [
    "C86_any_parents",
    "C86_pmx_any_parents",
    "C86_ox_any_parents",
    "C86_too_few_genes_panic"
   ],
   "note": ""
  },
  {
   "property": "C87",
   "status": "proved",
   "theorems": [
    "C87_strategies_end",
    "C87_operators_end",
    "C87_pmx_ends_iff",
    "C87_pmx_fuel",
    "C87_pmx_hangs",
    "C87_ox_ends_iff",
    "C87_ox_fuel",
    "C87_ox_hangs"
   ],
   "note": ""
  },
  {
   "property": "C88",
   "status": "proved",
   "theorems": [
    "C88_same_tour",
    "C88_scx_same",
    "C88_erx_same",
    "C88_gpx2_same"
   ],
   "note": ""
  },
  {
   "property": "C89",
   "status": "proved",
   "theorems": [
    "C89_aga_freezes"
   ],
   "note": ""
  },
  {
   "property": "C90",
   "status": "proved",
   "theorems": [
    "C90_never_worse",
    "C90_run_best",
    "C90_seed_best"
   ],
   "note": ""
  },
  {
   "property": "C91",
   "status": "proved",
   "theorems": [
    "C91_default_elites_stuck",
    "C91_ga_stuck",
    "C91_aga_stuck"
   ],
   "note": ""
  },
  {
   "property": "C92",
   "status": "proved",
   "theorems": [
    "C92_finds_goal",
    "C92_finds_goal_almost_surely",
    "C92_onemax_seed",
    "C92_onemax_run"
   ],
   "note": ""
  },
  {
   "property": "C93",
   "status": "proved",
   "theorems": [
    "C93_single_point_law",
    "C93_partially_mapped_law",
    "C93_order_law",
    "C93_sequential_constructive_law",
    "C93_edge_recombination_law",
    "C93_first_gene_uniform",
    "C93_partition_orders_uniform"
   ],
   "note": ""
  },
  {
   "property": "C94",
   "status": "proved",
   "theorems": [
    "C94_breed_outcomes"
   ],
   "note": ""
  },
  {
   "property": "C95",
   "status": "proved",
   "theorems": [
    "C95_ga_nested_run",
    "C95_aga_nested_run",
    "C95_own_size_refuted"
   ],
   "note": "Includes a refutation of the stronger claim by witness: C95_own_size_refuted"
  },
  {
   "property": "C96",
   "status": "proved",
   "theorems": [
    "C96_aga_finds_goal",
    "C96_aga_finds_goal_almost_surely",
    "C96_onemax_finds_optimum"
   ],
   "note": ""
  },
  {
   "property": "C97",
   "status": "proved",
   "theorems": [
    "C97_rank_small_population",
    "C97_rank_large_population_checked",
    "C97_rank_large_population_wrapping",
    "C97_rank_half_word",
    "C97_linear_same_in_every_build",
    "C97_range_checked",
    "C97_range_wrapping"
   ],
   "note": ""
  },
  {
   "property": "C98",
   "status": "proved",
   "theorems": [
    "C98_ga_bred_from_worst",
    "C98_aga_bred_from_worst",
    "C98_cold_in_the_end"
   ],
   "note": ""
  },
  {
   "property": "C99",
   "status": "proved",
   "theorems": [
    "C99_into",
    "C99_round_trip",
    "C99_round_trip_refuted"
   ],
   "note": "Includes a refutation of the stronger claim by witness: C99_round_trip_refuted"
  },
  {
   "property": "C100",
   "status": "proved",
   "theorems": [
    "C100_loop_covered",
    "C100_loop_finishes",
    "C100_no_endless_loop",
    "C100_run_guarantee",
    "C100_individual_guarantee",
    "C100_run_covered",
    "C100_individual_covered",
    "C100_run_realised",
    "C100_individual_realised",
    "C100_onemax_on_threads"
   ],
   "note": ""
  },
  {
   "property": "C101",
   "status": "proved",
   "theorems": [
    "C101_jobs_repeat",
    "C101_few_distinct",
    "C101_only_the_split_matters",
    "C101_population_of_one",
    "C101_reproducible_refuted",
    "C101_pool_order_refuted"
   ],
   "note": "Includes a refutation of the stronger claim by witness: C101_reproducible_refuted, C101_pool_order_refuted"
  },
  {
   "property": "C102",
   "status": "proved",
   "theorems": [
    "C102_sum_covered",
    "C102_prepare_covered",
    "C102_selection_same",
    "C102_breed_same"
   ],
   "note": ""
  },
  {
   "property": "C103",
   "status": "proved",
   "theorems": [
    "C103_ga_statements",
    "C103_aga_statements",
    "C103_ga_left",
    "C103_aga_left",
    "C103_ga_next_run",
    "C103_aga_next_run",
    "C103_ga_caught",
    "C103_aga_caught",
    "C103_ga_unchanged",
    "C103_aga_unchanged",
    "C103_without_effect_refuted"
   ],
   "note": "Includes a refutation of the stronger claim by witness: C103_without_effect_refuted"
  },
  {
   "property": "C104",
   "status": "proved",
   "theorems": [
    "C104_no_borrow_left",
    "C104_user_code",
    "C104_closure_may_run",
    "C104_who_runs_under_a_borrow",
    "C104_under_a_borrow",
    "C104_runs_under_a_borrow",
    "C104_runs_under_a_writer",
    "C104_reentry_panics",
    "C104_reentry_stops",
    "C104_still_usable",
    "C104_rejected_left",
    "C104_methods"
   ],
   "note": ""
  },
  {
   "property": "C105",
   "status": "proved",
   "theorems": [
    "C105_between",
    "C105_between_refuted",
    "C105_monotone",
    "C105_nan",
    "C105_builds",
    "C105_wrapped"
   ],
   "note": "Includes a refutation of the stronger claim by witness: C105_between_refuted"
  },
  {
   "property": "C106",
   "status": "proved",
   "theorems": [
    "C106_tournament",
    "C106_larger_tournament",
    "C106_rank",
    "C106_elitist",
    "C106_linear",
    "C106_roulette",
    "C106_boltzmann",
    "C106_boltzmann_refuted"
   ],
   "note": "Includes a refutation of the stronger claim by witness: C106_boltzmann_refuted"
  },
  {
   "property": "C107",
   "status": "proved",
   "theorems": [
    "C107_offspring",
    "C107_all",
    "C107_initial",
    "C107_variants"
   ],
   "note": ""
  },
  {
   "property": "C108",
   "status": "proved",
   "theorems": [
    "C108_permutations",
    "C108_only_permutations",
    "C108_scramble_once",
    "C108_duplicate",
    "C108_only_duplicate"
   ],
   "note": ""
  },
  {
   "property": "C109",
   "status": "proved",
   "theorems": [
    "C109_ga_finds_best",
    "C109_ga_finds_best_almost_surely",
    "C109_aga_finds_best",
    "C109_ga_local_optimum",
    "C109_aga_local_optimum",
    "C109_other_mutations_refuted"
   ],
   "note": "Includes a refutation of the stronger claim by witness: C109_other_mutations_refuted"
  },
  {
   "property": "C110",
   "status": "proved",
   "theorems": [
    "C110_ga_counter",
    "C110_aga_counter",
    "C110_counter_refuted",
    "C110_patience",
    "C110_ga_ends",
    "C110_aga_ends",
    "C110_always_ends",
    "C110_ends_refuted"
   ],
   "note": "Includes a refutation of the stronger claim by witness: C110_counter_refuted, C110_ends_refuted"
  },
  {
   "property": "C111",
   "status": "proved",
   "theorems": [
    "C111_agreement_kept",
    "C111_agreement_refuted",
    "C111_pmx_positional_refuted",
    "C111_ga_without_mutation",
    "C111_aga_without_mutation",
    "C111_ga_tour_agreement",
    "C111_aga_tour_agreement",
    "C111_ga_tour_lost_gene",
    "C111_aga_tour_lost_gene",
    "C111_ga_onemax_shared_bit",
    "C111_aga_onemax_shared_bit",
    "C111_tour_agreement_refuted",
    "C111_tour_lost_gene_refuted"
   ],
   "note": "Includes a refutation of the stronger claim by witness: C111_agreement_refuted, C111_pmx_positional_refuted, C111_tour_agreement_refuted, C111_tour_lost_gene_refuted"
  },
  {
   "property": "C112",
   "status": "proved",
   "theorems": [
    "C112_fields",
    "C112_empty",
    "C112_snapshot",
    "C112_options",
    "C112_text_determines",
    "C112_text_exact"
   ],
   "note": ""
  },
  {
   "property": "C113",
   "status": "proved",
   "theorems": [
    "C113_alike",
    "C113_ga_order",
    "C113_ga_order_run",
    "C113_ga_order_individual",
    "C113_aga_order",
    "C113_aga_order_run",
    "C113_aga_order_individual",
    "C113_default_methods",
    "C113_order_refuted",
    "C113_boltzmann_order_refuted",
    "C113_aga_order_refuted",
    "C113_ga_same_fitness",
    "C113_aga_same_fitness",
    "C113_aga_same_fitness_run",
    "C113_aga_same_fitness_individual"
   ],
   "note": "Includes a refutation of the stronger claim by witness: C113_order_refuted, C113_boltzmann_order_refuted, C113_aga_order_refuted"
  },
  {
   "property": "C114",
   "status": "proved",
   "theorems": [
    "C114_crossover",
    "C114_gpx2",
    "C114_partitions",
    "C114_partial_order_refuted",
    "C114_mutation",
    "C114_ga_tours",
    "C114_aga_tours",
    "C114_ga_tours_run"
   ],
   "note": "Includes a refutation of the stronger claim by witness: C114_partial_order_refuted"
  },
  {
   "property": "C115",
   "status": "proved",
   "theorems": [
    "C115_same_runs",
    "C115_breed",
    "C115_ga_calls",
    "C115_aga_calls",
    "C115_evaluations",
    "C115_budget"
   ],
   "note": ""
  },
  {
   "property": "C116",
   "status": "proved",
   "theorems": [
    "C116_steps_kept",
    "C116_steps_attained"
   ],
   "note": ""
  },
  {
   "property": "C117",
   "status": "proved",
   "theorems": [
    "C117_counts_steps",
    "C117_listed_once",
    "C117_symmetric",
    "C117_same_tour",
    "C117_no_single",
    "C117_triangle",
    "C117_mutations"
   ],
   "note": ""
  },
  {
   "property": "C118",
   "status": "proved",
   "theorems": [
    "C118_gpx2_loses_one",
    "C118_gpx2_keeps_all",
    "C118_gpx2_distance",
    "C118_gpx2_keeps_all_refuted",
    "C118_other_crossovers_refuted"
   ],
   "note": "Includes a refutation of the stronger claim by witness: C118_gpx2_keeps_all_refuted, C118_other_crossovers_refuted"
  },
  {
   "property": "C119",
   "status": "proved",
   "theorems": [
    "C119_keeps_uniform",
    "C119_forgets_start",
    "C119_all_orders",
    "C119_parity",
    "C119_alternates"
   ],
   "note": ""
  },
  {
   "property": "C120",
   "status": "proved",
   "theorems": [
    "C120_mean",
    "C120_fixes",
    "C120_falls",
    "C120_takeover",
    "C120_takeover_limit"
   ],
   "note": ""
  },
  {
   "property": "C121",
   "status": "proved",
   "theorems": [
    "C121_cycle_back",
    "C121_single_point_back",
    "C121_partially_mapped_back",
    "C121_order_back_refuted"
   ],
   "note": "Includes a refutation of the stronger claim by witness: C121_order_back_refuted"
  },
  {
   "property": "C122",
   "status": "proved",
   "theorems": [
    "C122_single_point_share",
    "C122_single_point_linkage",
    "C122_range_coverage",
    "C122_coverage_mirror",
    "C122_coverage_middle",
    "C122_coverage_ends",
    "C122_coverage_total",
    "C122_kept_position",
    "C122_kept_half"
   ],
   "note": ""
  },
  {
   "property": "C123",
   "status": "proved",
   "theorems": [
    "C123_rank_tournament",
    "C123_linear_tournament",
    "C123_linear_bias",
    "C123_elitist_ratio",
    "C123_elitist_tournament_refuted",
    "C123_fittest"
   ],
   "note": "Includes a refutation of the stronger claim by witness: C123_elitist_tournament_refuted"
  },
  {
   "property": "C124",
   "status": "proved",
   "theorems": [
    "C124_change",
    "C124_mean",
    "C124_middle",
    "C124_shuffle"
   ],
   "note": ""
  },
  {
   "property": "C125",
   "status": "proved",
   "theorems": [
    "C125_erx_second",
    "C125_erx_first",
    "C125_erx_exchange",
    "C125_erx_first_any_refuted",
    "C125_scx_second_refuted"
   ],
   "note": "Includes a refutation of the stronger claim by witness: C125_erx_first_any_refuted, C125_scx_second_refuted"
  },
  {
   "property": "C126",
   "status": "proved",
   "theorems": [
    "C126_equal_samples",
    "C126_zero_variance_refuted",
    "C126_negated_samples",
    "C126_reordered_exact",
    "C126_reordered_refuted"
   ],
   "note": "Includes a refutation of the stronger claim by witness: C126_zero_variance_refuted, C126_reordered_refuted"
  },
  {
   "property": "C127",
   "status": "proved",
   "theorems": [
    "C127_ox_turned",
    "C127_pmx_turned",
    "C127_pmx_rearranged",
    "C127_ox_reversed_refuted",
    "C127_cx_turned_refuted"
   ],
   "note": "Includes a refutation of the stronger claim by witness: C127_ox_reversed_refuted, C127_cx_turned_refuted"
  },
  {
   "property": "C128",
   "status": "proved",
   "theorems": [
    "C128_roulette",
    "C128_boltzmann",
    "C128_ga",
    "C128_ga_run",
    "C128_ga_individual",
    "C128_aga",
    "C128_aga_run",
    "C128_aga_individual",
    "C128_aga_refuted",
    "C128_boltzmann_refuted",
    "C128_shift_refuted"
   ],
   "note": "Includes a refutation of the stronger claim by witness: C128_aga_refuted, C128_boltzmann_refuted, C128_shift_refuted"
  },
  {
   "property": "C129",
   "status": "proved",
   "theorems": [
    "C129_direction",
    "C129_insertion_refuted",
    "C129_insertion_numbers",
    "C129_positions",
    "C129_turned_refuted"
   ],
   "note": "Includes a refutation of the stronger claim by witness: C129_insertion_refuted, C129_turned_refuted"
  },
  {
   "property": "C130",
   "status": "proved",
   "theorems": [
    "C130_stats",
    "C130_underflow_refuted",
    "C130_factor_refuted",
    "C130_aga",
    "C130_aga_run",
    "C130_aga_individual"
   ],
   "note": "Includes a refutation of the stronger claim by witness: C130_underflow_refuted, C130_factor_refuted"
  },
  {
   "property": "C131",
   "status": "proved",
   "theorems": [
    "C131_gpx2_shared_steps",
    "C131_gpx2_second",
    "C131_gpx2_strangers",
    "C131_gpx2_first_refuted",
    "C131_others_refuted"
   ],
   "note": "Includes a refutation of the stronger claim by witness: C131_gpx2_first_refuted, C131_others_refuted"
  },
  {
   "property": "C132",
   "status": "proved",
   "theorems": [
    "C132_second_parent",
    "C132_pair",
    "C132_stronger_first",
    "C132_alone",
    "C132_alone_at_most",
    "C132_elitist_alone",
    "C132_breed"
   ],
   "note": ""
  },
  {
   "property": "C133",
   "status": "proved",
   "theorems": [
    "C133_ga_sheds",
    "C133_aga_sheds",
    "C133_ga_never_grows",
    "C133_aga_never_grows",
    "C133_breed",
    "C133_lost",
    "C133_never_grows_refuted"
   ],
   "note": "Includes a refutation of the stronger claim by witness: C133_never_grows_refuted"
  },
  {
   "property": "C134",
   "status": "proved",
   "theorems": [
    "C134_aga_reaches",
    "C134_onemax_reaches_optimum"
   ],
   "note": ""
  },
  {
   "property": "C135",
   "status": "proved",
   "theorems": [
    "C135_offspring",
    "C135_offspring_mean",
    "C135_offspring_variance",
    "C135_breed",
    "C135_initial",
    "C135_onemax"
   ],
   "note": ""
  }
 ]
}