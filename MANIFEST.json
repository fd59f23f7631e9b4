{
 "claims": [
  {
   "property": "C01",
   "status": "proved",
   "theorems": [
    "C01_legal_operations_succeed",
    "C01_pop_returns_minimum",
    "C01_heap_holds_contents",
    "C01_drain_sorts"
   ],
   "note": ""
  },
  {
   "property": "C02",
   "status": "proved",
   "theorems": [
    "C02_reported_indices_exact",
    "C02_popped_index_and_update"
   ],
   "note": ""
  },
  {
   "property": "C03",
   "status": "proved",
   "theorems": [
    "C03_clear_leaves_stale_members",
    "C03_stale_post_update_drops_node",
    "C03_int_clear_leaves_stale_members"
   ],
   "note": "defect characterised for every reachable open list; both outcomes (abort, silent drop)"
  },
  {
   "property": "C04",
   "status": "proved",
   "theorems": [
    "C04_legal_operations_succeed",
    "C04_pop_returns_first",
    "C04_empty_mem_exact",
    "C04_drain_returns_everything"
   ],
   "note": ""
  },
  {
   "property": "C05",
   "status": "proved",
   "theorems": [
    "C05_legal_operations_succeed",
    "C05_pop_returns_newest_of_least_priority",
    "C05_mem_empty_exact",
    "C05_rm_removes_exactly"
   ],
   "note": ""
  },
  {
   "property": "C06",
   "status": "proved",
   "theorems": [
    "C06_clear_leaves_entries_marked",
    "C06_rm_after_clear_resurrects"
   ],
   "note": ""
  },
  {
   "property": "C07",
   "status": "proved",
   "theorems": [
    "C07_find_and_join_terminate",
    "C07_find_decides_connected",
    "C07_representative_is_member"
   ],
   "note": ""
  },
  {
   "property": "C08",
   "status": "proved",
   "theorems": [
    "C08_depth_not_logarithmic"
   ],
   "note": ""
  },
  {
   "property": "C09",
   "status": "proved",
   "theorems": [
    "C09_htable_operations_terminate",
    "C09_htable_find_exact",
    "C09_htable_fill_exact",
    "C09_htable_rm_result"
   ],
   "note": ""
  },
  {
   "property": "C10",
   "status": "proved",
   "theorems": [
    "C10_htable_rm_interior_keeps_element",
    "C10_htable_rm_of_older_colliding_element"
   ],
   "note": ""
  },
  {
   "property": "C11",
   "status": "proved",
   "theorems": [
    "C11_closed_operations_terminate",
    "C11_closed_find_exact",
    "C11_closed_remove_exact",
    "C11_closed_fill_exact"
   ],
   "note": ""
  },
  {
   "property": "C12",
   "status": "proved",
   "theorems": [
    "C12_iteration_visits_each_once"
   ],
   "note": ""
  },
  {
   "property": "C13",
   "status": "proved",
   "theorems": [
    "C13_add_to_second_list_loses_nodes"
   ],
   "note": ""
  },
  {
   "property": "C14",
   "status": "proved",
   "theorems": [
    "C14_get_returns_free_slot",
    "C14_live_objects_distinct",
    "C14_blocks_minimal_for_peak"
   ],
   "note": ""
  },
  {
   "property": "C15",
   "status": "proved",
   "theorems": [
    "C15_nearest_is_minimal",
    "C15_nearest_none_iff_empty",
    "C15_nearest_is_minimal_in_double_arithmetic"
   ],
   "note": ""
  },
  {
   "property": "C16",
   "status": "proved",
   "theorems": [
    "C16_size_counts_insertions",
    "C16_iteration_yields_each_once"
   ],
   "note": ""
  },
  {
   "property": "C17",
   "status": "proved",
   "theorems": [
    "C17_add_decides_consistency",
    "C17_bounds_are_tight"
   ],
   "note": ""
  },
  {
   "property": "C18",
   "status": "proved",
   "theorems": [
    "C18_rejected_add_changes_nothing",
    "C18_undo_restores",
    "C18_undo_defined"
   ],
   "note": ""
  },
  {
   "property": "C19",
   "status": "proved",
   "theorems": [
    "C19_clamped_arithmetic_exact"
   ],
   "note": ""
  },
  {
   "property": "C20",
   "status": "proved",
   "theorems": [
    "C20_eq_refuted"
   ],
   "note": ""
  },
  {
   "property": "C21",
   "status": "proved",
   "theorems": [
    "C21_runlength_roundtrip",
    "C21_runlength_yields_bytes"
   ],
   "note": ""
  },
  {
   "property": "C22",
   "status": "proved",
   "theorems": [
    "C22_base64_roundtrip"
   ],
   "note": ""
  },
  {
   "property": "C23",
   "status": "proved",
   "theorems": [
    "C23_ascii85_decodable",
    "C23_ascii85_injective"
   ],
   "note": ""
  },
  {
   "property": "C24",
   "status": "proved",
   "theorems": [
    "C24_control_string_roundtrip",
    "C24_sign_extension"
   ],
   "note": ""
  },
  {
   "property": "C25",
   "status": "proved",
   "theorems": [
    "C25_constructible",
    "C25_rank_in_range",
    "C25_rank_monotone",
    "C25_rank_onto"
   ],
   "note": ""
  },
  {
   "property": "C26",
   "status": "proved",
   "theorems": [
    "C26_ilog2",
    "C26_ipow",
    "C26_fallfact",
    "C26_fallfact_zero_refuted"
   ],
   "note": ""
  },
  {
   "property": "C27",
   "status": "proved",
   "theorems": [
    "C27_signed_add",
    "C27_unsigned_add",
    "C27_unsigned_mul",
    "C27_can_mul",
    "C27_division"
   ],
   "note": ""
  },
  {
   "property": "C28",
   "status": "proved",
   "theorems": [
    "C28_unsigned_sub",
    "C28_unsigned_sub_refuted",
    "C28_signed_sub",
    "C28_signed_mul",
    "C28_signed_mul_refuted"
   ],
   "note": ""
  },
  {
   "property": "C29",
   "status": "proved",
   "theorems": [
    "C29_bits_bijective",
    "C29_zero_state",
    "C29_integer_in_range",
    "C29_integer_onto",
    "C29_integer_limits"
   ],
   "note": ""
  },
  {
   "property": "C30",
   "status": "proved",
   "theorems": [
    "C30_tokens",
    "C30_gettoken",
    "C30_unbalanced",
    "C30_tokens_defined",
    "C30_hasprefix"
   ],
   "note": ""
  },
  {
   "property": "C31",
   "status": "proved",
   "theorems": [
    "C31_pairs_read_back",
    "C31_pair_truncated",
    "C31_row_limits",
    "C31_rowhdr_limits",
    "C31_empty_line_undefined"
   ],
   "note": ""
  },
  {
   "property": "C32",
   "status": "proved",
   "theorems": [
    "C32_split_join",
    "C32_root",
    "C32_plain",
    "C32_pathcatn_undefined"
   ],
   "note": ""
  },
  {
   "property": "C33",
   "status": "proved",
   "theorems": [
    "C33_commas",
    "C33_commas_delete"
   ],
   "note": ""
  },
  {
   "property": "C34",
   "status": "proved",
   "theorems": [
    "C34_astar_solution_real",
    "C34_astar_survives"
   ],
   "note": "for any open list meeting the contract in Search/Open.v, which the heap and the bucket array models are proved to meet"
  },
  {
   "property": "C35",
   "status": "proved",
   "theorems": [
    "C35_astar_optimal"
   ],
   "note": ""
  },
  {
   "property": "C36",
   "status": "proved",
   "theorems": [
    "C36_astar_terminates",
    "C36_astar_complete",
    "C36_astar_finds"
   ],
   "note": ""
  },
  {
   "property": "C37",
   "status": "proved",
   "theorems": [
    "C37_limits_respected",
    "C37_astar_limits"
   ],
   "note": ""
  },
  {
   "property": "C38",
   "status": "proved",
   "theorems": [
    "C38_pruned_operator_useless",
    "C38_pruning_unsafe_without_reverse"
   ],
   "note": ""
  },
  {
   "property": "C39",
   "status": "proved",
   "theorems": [
    "C39_wastar_bounded",
    "C39_wastar_terminates",
    "C39_wastar_sound_complete",
    "C39_wastar_dropdups_refuted"
   ],
   "note": "weight is a fraction wn/wd and f-prime is kept exact; double rounding is not modelled; with -dropdups the bound is refuted by C39_wastar_dropdups_refuted"
  },
  {
   "property": "C40",
   "status": "proved",
   "theorems": [
    "C40_greedy_terminates",
    "C40_greedy_sound_complete",
    "C40_greedy_finds"
   ],
   "note": "both settings of -dropdups"
  },
  {
   "property": "C41",
   "status": "proved",
   "theorems": [
    "C41_idastar_optimal",
    "C41_idastar_solution_real",
    "C41_idastar_finds"
   ],
   "note": ""
  },
  {
   "property": "C42",
   "status": "proved",
   "theorems": [
    "C42_idastar_never_ends",
    "C42_next_functional",
    "C42_bound_restarts",
    "C42_tree_exhausted"
   ],
   "note": ""
  },
  {
   "property": "C43",
   "status": "proved",
   "theorems": [
    "C43_beam_solution_real",
    "C43_beam_heap_solution_real",
    "C43_beam_int_solution_real",
    "C43_beam_dropdups_terminates",
    "C43_beam_stale_index_aborts"
   ],
   "note": "for both open lists; the abort on a rediscovered discarded node is shown on an instance (C43_beam_stale_index_aborts)"
  },
  {
   "property": "C44",
   "status": "proved",
   "theorems": [
    "C44_incumbents_improve",
    "C44_incumbents_valid",
    "C44_rows_decrease",
    "C44_bounds",
    "C44_bounds_admissible",
    "C44_terminates",
    "C44_optimal",
    "C44_solves",
    "C44_exact_cost_refuted",
    "C44_bound_zero_refuted",
    "C44_converged_under_limit_refuted",
    "C44_inconsistent_refuted"
   ],
   "note": ""
  },
  {
   "property": "C45",
   "status": "proved",
   "theorems": [
    "C45_start_value_overwritten",
    "C45_step",
    "C45_never_below_h",
    "C45_lookahead",
    "C45_lookahead_admissible",
    "C45_result_valid",
    "C45_no_false_negative",
    "C45_completeness_refuted",
    "C45_start_as_kid_refuted",
    "C45_start_below_h_refuted"
   ],
   "note": ""
  },
  {
   "property": "C46",
   "status": "proved",
   "theorems": [
    "C46_lookahead",
    "C46_learned_values",
    "C46_never_lowers",
    "C46_stays_consistent",
    "C46_result_valid",
    "C46_dead_end_inconsistent"
   ],
   "note": "consistency is kept where a goal can be reached from every state; next to a dead end it is lost (C46_dead_end_inconsistent); the -complete option is not modelled"
  },
  {
   "property": "C47",
   "status": "proved",
   "theorems": [
    "C47_moves_undone"
   ],
   "note": ""
  },
  {
   "property": "C48",
   "status": "proved",
   "theorems": [
    "C48_manhattan_exact",
    "C48_changes_by_one",
    "C48_zero_exactly_at_goal",
    "C48_lower_bound"
   ],
   "note": ""
  },
  {
   "property": "C49",
   "status": "proved",
   "theorems": [
    "C49_pack_faithful",
    "C49_state_eq"
   ],
   "note": ""
  },
  {
   "property": "C50",
   "status": "proved",
   "theorems": [
    "C50_moves_preserve_test",
    "C50_solvable_boards_pass",
    "C50_reachable_boards_pass",
    "C50_even_width_refuted"
   ],
   "note": ""
  },
  {
   "property": "C51",
   "status": "proved",
   "theorems": [
    "C51_flip_undone",
    "C51_gaps_exact"
   ],
   "note": ""
  },
  {
   "property": "C52",
   "status": "proved",
   "theorems": [
    "C52_counts_breaks",
    "C52_zero_exactly_at_sorted",
    "C52_changes_by_at_most_one",
    "C52_lower_bound"
   ],
   "note": ""
  },
  {
   "property": "C53",
   "status": "proved",
   "theorems": [
    "C53_child_taken_for_parent",
    "C53_other_bucket_right",
    "C53_resize_loses_parent",
    "C53_new_child_dropped",
    "C53_old_child_compared"
   ],
   "note": ""
  },
  {
   "property": "C54",
   "status": "proved",
   "theorems": [
    "C54_uniform_maps_bordered",
    "C54_ruml_maps_bordered",
    "C54_sturtevant_maps_bordered",
    "C54_no_access_out_of_range",
    "C54_stays_on_map"
   ],
   "note": ""
  },
  {
   "property": "C55",
   "status": "proved",
   "theorems": [
    "C55_reverse_is_opposite",
    "C55_reverse_undoes",
    "C55_reverse_cost"
   ],
   "note": ""
  },
  {
   "property": "C56",
   "status": "proved",
   "theorems": [
    "C56_heuristics_admissible",
    "C56_four_way_admissible",
    "C56_zero_at_goal",
    "C56_admissible_with_root"
   ],
   "note": ""
  },
  {
   "property": "C57",
   "status": "proved",
   "theorems": [
    "C57_negative_on_top_row",
    "C57_nonnegative_elsewhere"
   ],
   "note": ""
  },
  {
   "property": "C58",
   "status": "proved",
   "theorems": [
    "C58_loaded_instances_good",
    "C58_heuristic_admissible"
   ],
   "note": ""
  },
  {
   "property": "C59",
   "status": "proved",
   "theorems": [
    "C59_heuristic_reads_past_end",
    "C59_value_cancels"
   ],
   "note": ""
  },
  {
   "property": "C60",
   "status": "proved",
   "theorems": [
    "C60_operators_exact",
    "C60_edges_undone",
    "C60_new_state_good"
   ],
   "note": ""
  },
  {
   "property": "C61",
   "status": "proved",
   "theorems": [
    "C61_unpack_pack",
    "C61_good_state",
    "C61_pack_injective",
    "C61_initial_state"
   ],
   "note": ""
  },
  {
   "property": "C62",
   "status": "proved",
   "theorems": [
    "C62_unsorted_push_aborts",
    "C62_unsorted_pop_not_undone"
   ],
   "note": ""
  },
  {
   "property": "C63",
   "status": "proved",
   "theorems": [
    "C63_shortest_paths",
    "C63_steps_refuted"
   ],
   "note": ""
  },
  {
   "property": "C64",
   "status": "proved",
   "theorems": [
    "C64_path_string",
    "C64_cached",
    "C64_reverse",
    "C64_reverse_gripper_refuted",
    "C64_going_back_never_pays"
   ],
   "note": "the reverse restores poses, lines and counts but not the gripper (C64_reverse_gripper_refuted); that pruning the reverse operator is still harmless is C64_going_back_never_pays; geometry (line, ok) is left open"
  },
  {
   "property": "C65",
   "status": "proved",
   "theorems": [
    "C65_inside",
    "C65_start",
    "C65_continuous",
    "C65_bounce",
    "C65_one_row_refuted"
   ],
   "note": ""
  },
  {
   "property": "C66",
   "status": "proved",
   "theorems": [
    "C66_astar_optimal",
    "C66_astar_solves",
    "C66_inadmissible_refuted",
    "C66_unsolvable_never_ends"
   ],
   "note": ""
  },
  {
   "property": "C67",
   "status": "proved",
   "theorems": [
    "C67_attribute_list",
    "C67_lookup_missing_refuted"
   ],
   "note": ""
  },
  {
   "property": "C68",
   "status": "proved",
   "theorems": [
    "C68_withattrs",
    "C68_pathfor",
    "C68_found_again",
    "C68_distinct_paths",
    "C68_pathattrs",
    "C68_key_in_root_refuted",
    "C68_lacking_refuted",
    "C68_directory_refuted"
   ],
   "note": ""
  },
  {
   "property": "C69",
   "status": "proved",
   "theorems": [
    "C69_policy_optimal",
    "C69_trained_policy_optimal",
    "C69_stop",
    "C69_single_time_bin_refuted",
    "C69_negative_weight_refuted",
    "C69_worst_cost_refuted"
   ],
   "note": ""
  },
  {
   "property": "C70",
   "status": "proved",
   "theorems": [
    "C70_bins",
    "C70_training",
    "C70_normalised",
    "C70_no_solution_refuted"
   ],
   "note": ""
  },
  {
   "property": "C71",
   "status": "proved",
   "theorems": [
    "C71_accepted",
    "C71_narrow_refuted"
   ],
   "note": ""
  },
  {
   "property": "C72",
   "status": "proved",
   "theorems": [
    "C72_astar_solves_tiles",
    "C72_idastar_solves_tiles",
    "C72_pathcost_counts_moves"
   ],
   "note": ""
  },
  {
   "property": "C73",
   "status": "proved",
   "theorems": [
    "C73_idastar_sorts_pancakes",
    "C73_solutions_are_flips"
   ],
   "note": ""
  },
  {
   "property": "C74",
   "status": "proved",
   "theorems": [
    "C74_astar_navigates"
   ],
   "note": ""
  },
  {
   "property": "C75",
   "status": "proved",
   "theorems": [
    "C75_charge_aborts"
   ],
   "note": ""
  },
  {
   "property": "C76",
   "status": "proved",
   "theorems": [
    "C76_astar_cleans"
   ],
   "note": ""
  },
  {
   "property": "C77",
   "status": "proved",
   "theorems": [
    "C77_heuristic_admissible",
    "C77_goal_test"
   ],
   "note": ""
  },
  {
   "property": "C78",
   "status": "proved",
   "theorems": [
    "C78_astar_plans"
   ],
   "note": ""
  },
  {
   "property": "C79",
   "status": "proved",
   "theorems": [
    "C79_find_ends",
    "C79_incons_add",
    "C79_lost"
   ],
   "note": ""
  },
  {
   "property": "C80",
   "status": "proved",
   "theorems": [
    "C80_lss_complete",
    "C80_dead_end_refuted",
    "C80_no_lookahead_refuted",
    "C80_onestep_refuted"
   ],
   "note": "the -complete option is not modelled"
  },
  {
   "property": "C81",
   "status": "proved",
   "theorems": [
    "C81_admissible",
    "C81_distance",
    "C81_inconsistent_refuted"
   ],
   "note": "costs as exact real numbers (stdlib Reals axioms); floating-point rounding not modelled; inconsistency by C81_inconsistent_refuted"
  },
  {
   "property": "C82",
   "status": "proved",
   "theorems": [
    "C82_file_bounds_transposed",
    "C82_file_bounds_square",
    "C82_generated_bounds"
   ],
   "note": ""
  },
  {
   "property": "C83",
   "status": "proved",
   "theorems": [
    "C83_astar_optimal_along",
    "C83_astar_infinite_space",
    "C83_astar_none_finite",
    "C83_astar_unsolvable_never_ends",
    "C83_wastar_bounded_along",
    "C83_wastar_infinite_space",
    "C83_greedy_diverges_refuted"
   ],
   "note": ""
  },
  {
   "property": "C84",
   "status": "proved",
   "theorems": [
    "C84_operators",
    "C84_edge",
    "C84_safe",
    "C84_pathcost",
    "C84_ident_refuted"
   ],
   "note": ""
  },
  {
   "property": "C85",
   "status": "proved",
   "theorems": [
    "C85_attrargs",
    "C85_separate_value",
    "C85_leading_equals_undefined"
   ],
   "note": ""
  },
  {
   "property": "C86",
   "status": "proved",
   "theorems": [
    "C86_never_in_walls",
    "C86_goal"
   ],
   "note": ""
  },
  {
   "property": "C87",
   "status": "proved",
   "theorems": [
    "C87_dry_levels",
    "C87_speed_refuted"
   ],
   "note": ""
  },
  {
   "property": "C88",
   "status": "proved",
   "theorems": [
    "C88_operators",
    "C88_let_go_refuted",
    "C88_reverse_refuted"
   ],
   "note": ""
  },
  {
   "property": "C89",
   "status": "proved",
   "theorems": [
    "C89_packing",
    "C89_distinct"
   ],
   "note": ""
  },
  {
   "property": "C90",
   "status": "proved",
   "theorems": [
    "C90_read",
    "C90_only_pictures",
    "C90_letters",
    "C90_letters_shown"
   ],
   "note": ""
  },
  {
   "property": "C91",
   "status": "proved",
   "theorems": [
    "C91_limits"
   ],
   "note": ""
  },
  {
   "property": "C92",
   "status": "proved",
   "theorems": [
    "C92_counters"
   ],
   "note": ""
  },
  {
   "property": "C93",
   "status": "proved",
   "theorems": [
    "C93_no_reopening"
   ],
   "note": ""
  },
  {
   "property": "C94",
   "status": "proved",
   "theorems": [
    "C94_letters",
    "C94_letters_differ"
   ],
   "note": ""
  },
  {
   "property": "C95",
   "status": "proved",
   "theorems": [
    "C95_mix_reversible",
    "C95_final_reversible",
    "C95_depends_on_key_only",
    "C95_in_range"
   ],
   "note": ""
  },
  {
   "property": "C96",
   "status": "proved",
   "theorems": [
    "C96_sound_complete",
    "C96_terminates",
    "C96_survives",
    "C96_limits_respected",
    "C96_slim_sound_complete",
    "C96_slim_terminates",
    "C96_full_sound_complete",
    "C96_full_terminates"
   ],
   "note": ""
  },
  {
   "property": "C97",
   "status": "proved",
   "theorems": [
    "C97_slim_expands_best",
    "C97_slim_resorts",
    "C97_slim_estimates_kept",
    "C97_slim_averages",
    "C97_generation_stamp",
    "C97_full_expands_best",
    "C97_full_averages",
    "C97_full_resorts"
   ],
   "note": ""
  },
  {
   "property": "C98",
   "status": "proved",
   "theorems": [
    "C98_pathmax",
    "C98_dropdups_f_bound"
   ],
   "note": ""
  },
  {
   "property": "C99",
   "status": "proved",
   "theorems": [
    "C99_free_time_optimal"
   ],
   "note": ""
  },
  {
   "property": "C100",
   "status": "proved",
   "theorems": [
    "C100_noresort_ignores_expdelay"
   ],
   "note": ""
  },
  {
   "property": "C101",
   "status": "proved",
   "theorems": [
    "C101_sparse_store",
    "C101_sparse_index",
    "C101_sparse_nine_tiles_refuted"
   ],
   "note": ""
  },
  {
   "property": "C102",
   "status": "proved",
   "theorems": [
    "C102_compact_store",
    "C102_compact_tight",
    "C102_bytes_agree"
   ],
   "note": ""
  },
  {
   "property": "C103",
   "status": "proved",
   "theorems": [
    "C103_components"
   ],
   "note": ""
  },
  {
   "property": "C104",
   "status": "proved",
   "theorems": [
    "C104_outlines",
    "C104_start_must_be_a_corner"
   ],
   "note": ""
  },
  {
   "property": "C105",
   "status": "proved",
   "theorems": [
    "C105_framed",
    "C105_open_frame_refuted",
    "C105_no_frame_refuted"
   ],
   "note": ""
  },
  {
   "property": "C106",
   "status": "proved",
   "theorems": [
    "C106_box_of_points",
    "C106_box_of_corners",
    "C106_hits",
    "C106_contains",
    "C106_translate"
   ],
   "note": ""
  },
  {
   "property": "C107",
   "status": "proved",
   "theorems": [
    "C107_meet_found",
    "C107_found_meet",
    "C107_in_line",
    "C107_contained_refuted",
    "C107_parallel_refuted"
   ],
   "note": ""
  },
  {
   "property": "C108",
   "status": "proved",
   "theorems": [
    "C108_contains",
    "C108_built",
    "C108_defined",
    "C108_contains_built"
   ],
   "note": ""
  },
  {
   "property": "C109",
   "status": "proved",
   "theorems": [
    "C109_built",
    "C109_translated",
    "C109_scaled",
    "C109_obstructed",
    "C109_map_translated",
    "C109_map_scaled"
   ],
   "note": ""
  },
  {
   "property": "C110",
   "status": "proved",
   "theorems": [
    "C110_visible",
    "C110_hidden",
    "C110_min",
    "C110_max_refuted"
   ],
   "note": ""
  },
  {
   "property": "C111",
   "status": "proved",
   "theorems": [
    "C111_free_space"
   ],
   "note": ""
  },
  {
   "property": "C112",
   "status": "proved",
   "theorems": [
    "C112_outline",
    "C112_free_space"
   ],
   "note": ""
  },
  {
   "property": "C113",
   "status": "proved",
   "theorems": [
    "C113_edges",
    "C113_mirror",
    "C113_add_defined",
    "C113_scaled",
    "C113_translated"
   ],
   "note": ""
  },
  {
   "property": "C114",
   "status": "proved",
   "theorems": [
    "C114_built",
    "C114_added",
    "C114_sight",
    "C114_no_sight"
   ],
   "note": ""
  },
  {
   "property": "C115",
   "status": "proved",
   "theorems": [
    "C115_ends",
    "C115_operators",
    "C115_consistent",
    "C115_admissible",
    "C115_straight",
    "C115_path_cost",
    "C115_path_checked"
   ],
   "note": ""
  },
  {
   "property": "C116",
   "status": "proved",
   "theorems": [
    "C116_distances",
    "C116_diagonal"
   ],
   "note": ""
  },
  {
   "property": "C117",
   "status": "proved",
   "theorems": [
    "C117_map",
    "C117_stays",
    "C117_defined",
    "C117_start_elsewhere",
    "C117_pocket_refuted"
   ],
   "note": "the map covers one room only: C117_pocket_refuted"
  },
  {
   "property": "C118",
   "status": "proved",
   "theorems": [
    "C118_zero_at_goal",
    "C118_in_sight"
   ],
   "note": ""
  },
  {
   "property": "C119",
   "status": "partial",
   "theorems": [
    "C119_admissible_partial"
   ],
   "note": "admissible relative to the completeness of the visibility graph (shortcuts): unproved in general, met by straight_shortcuts; in sight it is C118_in_sight without that hypothesis"
  },
  {
   "property": "C120",
   "status": "proved",
   "theorems": [
    "C120_result_valid",
    "C120_lookahead_ends"
   ],
   "note": ""
  },
  {
   "property": "C121",
   "status": "proved",
   "theorems": [
    "C121_errors",
    "C121_first",
    "C121_original_d_refuted",
    "C121_observed",
    "C121_average",
    "C121_move",
    "C121_order_refuted",
    "C121_goal"
   ],
   "note": "the distances the error of d is measured on are the learned ones, not the original ones as the comment in the code says: C121_original_d_refuted"
  },
  {
   "property": "C122",
   "status": "proved",
   "theorems": [
    "C122_learned_values",
    "C122_stays_consistent",
    "C122_reopened_refuted"
   ],
   "note": "without the proviso on expanded nodes that are open again the claim is false: C122_reopened_refuted"
  },
  {
   "property": "C123",
   "status": "proved",
   "theorems": [
    "C123_number",
    "C123_lines",
    "C123_limits",
    "C123_accepted"
   ],
   "note": ""
  },
  {
   "property": "C124",
   "status": "proved",
   "theorems": [
    "C124_lookahead",
    "C124_accepted",
    "C124_expansions"
   ],
   "note": ""
  },
  {
   "property": "C125",
   "status": "proved",
   "theorems": [
    "C125_table",
    "C125_no_table",
    "C125_maxlss",
    "C125_affordable_refuted",
    "C125_deadline"
   ],
   "note": "that the chosen size fits in the time is false: C125_affordable_refuted"
  },
  {
   "property": "C126",
   "status": "proved",
   "theorems": [
    "C126_safe",
    "C126_marks",
    "C126_armed",
    "C126_stays",
    "C126_reached",
    "C126_reuse_refuted"
   ],
   "note": "that a limit can be used again after a time-out is false: C126_reuse_refuted; signals come between calls in the model"
  },
  {
   "property": "C127",
   "status": "proved",
   "theorems": [
    "C127_result_valid",
    "C127_step_ends",
    "C127_assertion_refuted"
   ],
   "note": "the decision to go on is a parameter; that the assertion at dtastar.hpp:264 never fails is false once values are scaled: C127_assertion_refuted"
  },
  {
   "property": "C128",
   "status": "proved",
   "theorems": [
    "C128_value",
    "C128_move",
    "C128_others",
    "C128_value_refuted",
    "C128_admissible_refuted",
    "C128_learnfull_refuted",
    "C128_learned"
   ],
   "note": "admissibility of stored values is false: C128_value_refuted, C128_admissible_refuted, C128_learnfull_refuted"
  },
  {
   "property": "C129",
   "status": "proved",
   "theorems": [
    "C129_goal",
    "C129_optimal_refuted"
   ],
   "note": "for ways that avoid the current state; without that proviso the comment in the code is false: C129_optimal_refuted"
  },
  {
   "property": "C130",
   "status": "proved",
   "theorems": [
    "C130_result_valid",
    "C130_tree"
   ],
   "note": "for any coordinate arithmetic that meets the laws of Kdtree/Props.v (exact integers, IEEE doubles)"
  },
  {
   "property": "C131",
   "status": "proved",
   "theorems": [
    "C131_extends",
    "C131_no_goal",
    "C131_complete",
    "C131_initial_goal_refuted",
    "C131_seed",
    "C131_seed_given"
   ],
   "note": "that a goal which is the initial state is found is false: C131_initial_goal_refuted; that -s sets the seed is false: C131_seed_given"
  },
  {
   "property": "C132",
   "status": "proved",
   "theorems": [
    "C132_result",
    "C132_optimal",
    "C132_path_refuted",
    "C132_ends_refuted"
   ],
   "note": "that the path is a solution is false, its last state is missing: C132_path_refuted; without optimality it need not end: C132_ends_refuted"
  },
  {
   "property": "C133",
   "status": "proved",
   "theorems": [
    "C133_rows",
    "C133_columns"
   ],
   "note": "numbers are written and read without loss in the model; the code prints six digits (%g)"
  },
  {
   "property": "C134",
   "status": "proved",
   "theorems": [
    "C134_sample",
    "C134_filled",
    "C134_uniform_refuted"
   ],
   "note": "that the sample is uniform is false: C134_uniform_refuted"
  },
  {
   "property": "C135",
   "status": "proved",
   "theorems": [
    "C135_rows",
    "C135_optimal",
    "C135_ends",
    "C135_nopath",
    "C135_nopath_refuted"
   ],
   "note": "entries without a path fail an assertion instead of giving the cost -1: C135_nopath, C135_nopath_refuted; reading of entries and options is not modelled"
  },
  {
   "property": "C136",
   "status": "proved",
   "theorems": [
    "C136_result_valid",
    "C136_below_expanded",
    "C136_moves_to_last_layer",
    "C136_ends"
   ],
   "note": "weight 1 and without -onestep for the layer and for termination; validity holds with any weight and with -onestep; f is compared exactly, with a tolerance in the code"
  },
  {
   "property": "C137",
   "status": "proved",
   "theorems": [
    "C137_adds",
    "C137_no_pair_refuted",
    "C137_present_unchanged",
    "C137_again"
   ],
   "note": "a file without any pair silently loses the attributes: C137_no_pair_refuted; file opening and renaming succeed in the model; empty lines are undefined behaviour of readline (C31_empty_line_undefined)"
  },
  {
   "property": "C138",
   "status": "proved",
   "theorems": [
    "C138_complete"
   ],
   "note": "lines are those readline returns unchanged: not empty, no NUL, no trailing carriage return"
  },
  {
   "property": "C139",
   "status": "proved",
   "theorems": [
    "C139_table",
    "C139_bin_used",
    "C139_fails",
    "C139_share_refuted"
   ],
   "note": "that the entries are the shares of the rows is false: C139_share_refuted; C139_table says what they are; doubles are exact rationals, unsigned numbers unbounded"
  },
  {
   "property": "C140",
   "status": "proved",
   "theorems": [
    "C140_stops",
    "C140_never_stops",
    "C140_training_undefined",
    "C140_goes",
    "C140_cache_refuted"
   ],
   "note": "that it stops when no set of nodes is worth its cost is false: C140_never_stops, C140_training_undefined (infinity is converted to an unsigned number); that the gain uses the least chances is false: C140_cache_refuted; the order of the nodes and the f of the second lookahead are given"
  },
  {
   "property": "C141",
   "status": "proved",
   "theorems": [
    "C141_rows",
    "C141_negative"
   ],
   "note": "on what dfread reports of the files; strtol and strtod are parameters, their tests for errors are never true in the code; the choice of files is that of C68; doubles are exact rationals"
  }
 ]
}