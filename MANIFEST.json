{"claims": [
 {"property": "C01", "status": "proved", "theorems": ["C01_weight_is_minimal"], "note": ""},
 {"property": "C02", "status": "proved", "theorems": ["C02_none_iff_no_path"], "note": ""},
 {"property": "C03", "status": "proved", "theorems": ["C03_path_is_real"], "note": ""},
 {"property": "C04", "status": "proved", "theorems": ["C04_multi_minimum"], "note": ""},
 {"property": "C05", "status": "proved", "theorems": ["C05_multi_decomposition"], "note": ""},
 {"property": "C06", "status": "proved", "theorems": ["C06_source_is_target", "C06_always_answered", "C06_always_answered_by_calculators"], "note": ""},
 {"property": "C07", "status": "proved", "theorems": ["C07_permutation_is_accepted", "C07_order_is_irrelevant", "C07_orders_agree"], "note": ""},
 {"property": "C08", "status": "proved", "theorems": ["C08_params_are_irrelevant"], "note": ""},
 {"property": "C09", "status": "partial", "theorems": ["C09_outcomes_in_both_builds", "C09_invalid_id_in_release", "C09_error_iff_wrong_length", "C09_ok_has_valid_ids_partial", "C09_invalid_id_panics", "C09_valid_ids_outcomes", "C09_refuted", "C09_invented_path_refuted"], "note": "Err exactly for a wrong length; an invalid id stops with the documented panic; every order of the right length with valid ids either gives a graph or stops with one of two lookup panics (or overflow/capacity); both also in builds without overflow checks, where overflow does not stop it (C09_outcomes_in_both_builds, C09_invalid_id_in_release). The remaining clause, that an order with a repeated id is never accepted, is false of the code: C09_refuted (a path is lost) and C09_invented_path_refuted (an answer where no path exists, starting at a node that was not asked for)."},
 {"property": "C10", "status": "proved", "theorems": ["C10_ordering_is_permutation", "C10_given_order_is_returned", "C10_ordering_can_be_reused"], "note": ""},
 {"property": "C11", "status": "proved", "theorems": ["C11_history_is_irrelevant", "C11_single_history_is_irrelevant"], "note": ""},
 {"property": "C12", "status": "proved", "theorems": ["C12_misuse_is_rejected", "C12_proper_use_is_safe", "C12_calc_path_is_safe"], "note": ""},
 {"property": "C13", "status": "proved", "theorems": ["C13_prepare_is_safe", "C13_prepare_with_order_is_safe"], "note": ""},
 {"property": "C14", "status": "proved", "theorems": ["C14_prepare_succeeds", "C14_prepare_with_order_succeeds", "C14_query_succeeds", "C14_query_succeeds_by_stored_weights"], "note": ""},
 {"property": "C15", "status": "proved", "theorems": ["C15_prepare_agrees", "C15_prepare_with_order_agrees", "C15_query_agrees", "C15_calc_path_agrees", "C15_input_graph_agrees"], "note": ""},
 {"property": "C16", "status": "partial", "theorems": ["C16_unchecked_build_partial", "C16_no_overflow_partial", "C16_stored_weights_partial", "C16_refuted", "C16_refuted_with_order", "C16_not_even_modulo_refuted"], "note": "Unchecked builds are proved correct on every execution in which no sum overflows. The claim for all weights is false of the code; C16_refuted and C16_refuted_with_order give witnesses. When sums wrap, the reported weight need not even be that of the returned path modulo 2^64 (C16_not_even_modulo_refuted)."},
 {"property": "C17", "status": "proved", "theorems": ["C17_items_are_ordered", "C17_tie_breaking_is_irrelevant", "C17_library_queues"], "note": ""},
 {"property": "C18", "status": "proved", "theorems": ["C18_freeze_normalises", "C18_no_edge_is_lost"], "note": ""},
 {"property": "C19", "status": "proved", "theorems": ["C19_writing_needs_freeze", "C19_freeze_thaw_protocol", "C19_frozen_iff_last_freeze", "C19_preparing_needs_freeze", "C19_add_edge_succeeds"], "note": ""},
 {"property": "C20", "status": "proved", "theorems": ["C20_add_edge_counts", "C20_node_and_edge_count"], "note": ""},
 {"property": "C21", "status": "proved", "theorems": ["C21_history_is_irrelevant"], "note": ""},
 {"property": "C22", "status": "proved", "theorems": ["C22_plain_round_trip"], "note": ""},
 {"property": "C23", "status": "proved", "theorems": ["C23_dimacs_round_trip"], "note": ""},
 {"property": "C24", "status": "partial", "theorems": ["C24_lines_and_characters", "C24_only_utf8", "C24_separators", "C24_documented_problem_line_is_rejected", "C24_accepts_exactly_the_format", "C24_panics_otherwise", "C24_meaning_is_unique", "C24_rejects_malformed", "C24_cut_after_a_line_partial", "C24_cut_before_problem_line_refuted"], "note": "from_dimacs_file is characterised exactly (accepts a file iff it has the format, panics otherwise). The clause on files cut off after a line holds unless the cut is before the problem line: such a file is accepted as an empty graph (C24_cut_before_problem_line_refuted). The problem line as given in the doc comment, \"p <num_nodes> <num_edges>\", is always rejected (C24_documented_problem_line_is_rejected): the code requires \"p sp\"."},
 {"property": "C25", "status": "partial", "theorems": ["C25_declared_nodes_are_a_bound_partial", "C25_declared_nodes_exact", "C25_declared_nodes_refuted"], "note": "False of the code: the declared node count is only an upper bound (proved), and it is the node count exactly if the last declared node has an edge that is kept (C25_declared_nodes_exact); other trailing nodes are lost (C25_declared_nodes_refuted)."},
 {"property": "C26", "status": "partial", "theorems": ["C26_written_file_is_a_prefix_partial", "C26_ok_means_complete_refuted", "C26_truncated_plain_file_partial", "C26_truncated_dimacs_file_partial", "C26_truncation_refuted"], "note": "False of the code: errors of the last flush are ignored when the writer is dropped, and some cut files are accepted. Proved instead: the file is always a prefix, at most 8192 bytes are missing after Ok, nothing is missing without device errors, and what exactly a cut file may be read as."},
 {"property": "C27", "status": "proved", "theorems": ["C27_round_trip"], "note": ""},
 {"property": "C28", "status": "proved", "theorems": ["C28_panics_iff_too_large", "C28_never_truncates"], "note": ""},
 {"property": "C29", "status": "partial", "theorems": ["C29_below_u32_max_partial", "C29_refuted"], "note": "Proved with the bound 2^32-1 in place of 2^32. The claim with 2^32 is false of the code: a weight of exactly 2^32-1 turns into usize::MAX (C29_refuted)."},
 {"property": "C30", "status": "partial", "theorems": ["C30_without_edges_partial", "C30_with_edges_refuted"], "note": "The claim is false of the code: C30_with_edges_refuted proves that the conversion recurses forever for every prepared graph that has an edge; it works only for graphs without edges (C30_without_edges_partial)."},
 {"property": "C31", "status": "proved", "theorems": ["C31_symmetry"], "note": ""},
 {"property": "C32", "status": "proved", "theorems": ["C32_triangle_inequality", "C32_paths_are_simple", "C32_subpaths_are_optimal"], "note": ""},
 {"property": "C33", "status": "proved", "theorems": ["C33_none_stands_for_no_path", "C33_none_answers_are_equal", "C33_equality", "C33_is_found", "C33_returned_paths_are_found", "C33_answers_are_equal"], "note": ""},
 {"property": "C34", "status": "proved", "theorems": ["C34_stored_edges"], "note": ""},
 {"property": "C35", "status": "proved", "theorems": ["C35_distances_preserved"], "note": ""},
 {"property": "C36", "status": "proved", "theorems": ["C36_adding_edges"], "note": ""},
 {"property": "C37", "status": "proved", "theorems": ["C37_dijkstra_is_right", "C37_dijkstra_returns", "C37_floyd_warshall_is_right", "C37_floyd_warshall_returns", "C37_agreement", "C37_dijkstra_is_right_in_release", "C37_dijkstra_returns_in_release", "C37_floyd_warshall_is_right_in_release", "C37_release_without_bound_refuted"], "note": "Both reference implementations are modelled in full and proved right for all graphs; the model of Vec and BinaryHeap is as everywhere. In builds without overflow checks the same holds if number of nodes times greatest weight (twice that for FloydWarshall) is a usize, also for Dijkstra objects that were used before on graphs where sums wrapped; without the bound it is refuted there (C37_release_without_bound_refuted)."},
 {"property": "C38", "status": "proved", "theorems": ["C38_valid_iff_marked", "C38_wrap_is_reached"], "note": ""},
 {"property": "C39", "status": "proved", "theorems": ["C39_loops_and_duplicates_are_irrelevant"], "note": ""},
 {"property": "C40", "status": "proved", "theorems": ["C40_written_64_read_32"], "note": ""},
 {"property": "C41", "status": "proved", "theorems": ["C41_accepts_exactly_the_format", "C41_panics_otherwise", "C41_meaning_is_unique"], "note": ""},
 {"property": "C42", "status": "proved", "theorems": ["C42_files_are_portable", "C42_large_values_are_rejected"], "note": ""},
 {"property": "C43", "status": "partial", "theorems": ["C43_dijkstra_rejects_misuse", "C43_floyd_warshall_misuse_partial", "C43_floyd_warshall_unknown_target_refuted", "C43_floyd_warshall_reuse_refuted", "C43_floyd_warshall_reuse_exact", "C43_floyd_warshall_prepare_again", "C43_floyd_warshall_size", "C43_floyd_warshall_size_refuted"], "note": "The Dijkstra part is proved, and that FloydWarshall::calc_weight rejects unknown sources. The other FloydWarshall parts are false: calc_weight has no bounds check on the target (C43_floyd_warshall_misuse_partial says exactly which pair it answers for), prepare keeps the old matrix (C43_floyd_warshall_reuse_exact says exactly what a reused object reports; preparing again for the same graph changes nothing, C43_floyd_warshall_prepare_again). Concrete counterexamples are proved. In builds without overflow checks FloydWarshall::new can create a matrix that is too small (C43_floyd_warshall_size, C43_floyd_warshall_size_refuted)."},
 {"property": "C44", "status": "proved", "theorems": ["C44_round_trip", "C44_prepared_graph", "C44_input_graph", "C44_injective", "C44_bytes", "C44_only_saved_graphs_load", "C44_only_saved_input_graphs_load"], "note": "The format is that of bincode 1.3.3, modelled as external code; serde's derived code visits fields in declaration order."},
 {"property": "C45", "status": "proved", "theorems": ["C45_cut_file", "C45_cut_file_32", "C45_cut_input_graph", "C45_cut_file_any_platform", "C45_cut_file_32_any_platform", "C45_cut_input_graph_any_platform"], "note": ""},
 {"property": "C46", "status": "proved", "theorems": ["C46_round_trip_32", "C46_written_64_read_32", "C46_panics_iff_too_large", "C46_only_saved_graphs_load"], "note": ""},
 {"property": "C47", "status": "proved", "theorems": ["C47_size", "C47_size_32"], "note": ""},
 {"property": "C48", "status": "proved", "theorems": ["C48_other_platform", "C48_plain_64_is_rejected_on_32"], "note": ""},
 {"property": "C49", "status": "partial", "theorems": ["C49_foreign_file_refuted", "C49_foreign_file_32_refuted", "C49_saved_file_partial"], "note": "False of the code: nothing is validated on loading; C49_foreign_file_refuted and C49_foreign_file_32_refuted give files. Proved for all files written from prepared graphs. C75 gives local checks under which any loaded graph is safe and right."},
 {"property": "C50", "status": "proved", "theorems": ["C50_output_rebuilds_the_graph", "C50_code_is_unambiguous", "C50_debug_rebuilds_the_graph"], "note": ""},
 {"property": "C51", "status": "proved", "theorems": ["C51_at_most_every_single_query", "C51_attained_by_a_single_query", "C51_more_endpoints", "C51_lists_are_sets"], "note": ""},
 {"property": "C52", "status": "proved", "theorems": ["C52_reversal"], "note": ""},
 {"property": "C53", "status": "proved", "theorems": ["C53_scaling"], "note": ""},
 {"property": "C54", "status": "proved", "theorems": ["C54_renaming"], "note": ""},
 {"property": "C55", "status": "proved", "theorems": ["C55_number_of_edges"], "note": ""},
 {"property": "C56", "status": "proved", "theorems": ["C56_no_needless_shortcuts", "C56_low_limits_break_it"], "note": ""},
 {"property": "C57", "status": "proved", "theorems": ["C57_order_is_exact", "C57_params_is_exact", "C57_default_for_hundred_nodes", "C57_low_limits_break_it"], "note": ""},
 {"property": "C58", "status": "proved", "theorems": ["C58_recursion_depth", "C58_depth_is_attained", "C58_nesting_depth"], "note": ""},
 {"property": "C59", "status": "proved", "theorems": ["C59_shortcuts_are_simple", "C59_low_limits_break_it"], "note": ""},
 {"property": "C60", "status": "proved", "theorems": ["C60_low_limits_break_it", "C60_low_limits_overflow", "C60_low_limits_wrong_weight", "C60_default_for_five_hundred_nodes", "C60_stored_weights", "C60_prepare_succeeds", "C60_prepare_with_order_succeeds", "C60_query_succeeds", "C60_default_for_hundred_nodes", "C60_unchecked_build"], "note": ""},
 {"property": "C61", "status": "proved", "theorems": ["C61_own_ordering_reproduces", "C61_ordering_exists", "C61_limit_of_new_params", "C61_without_limits", "C61_default_for_hundred_nodes", "C61_other_limit_breaks_it"], "note": ""},
 {"property": "C62", "status": "proved", "theorems": ["C62_prepare_is_textbook", "C62_prepare_with_order_is_textbook", "C62_priority_is_unique"], "note": ""},
 {"property": "C63", "status": "proved", "theorems": ["C63_stored_edges_are_low_connections", "C63_limit_zero_stores_lightest_low_connections", "C63_limit_zero_stores_every_edge", "C63_limit_zero_stores_most", "C63_higher_limit_can_store_more"], "note": ""},
 {"property": "C64", "status": "proved", "theorems": ["C64_same_results", "C64_same_results_single", "C64_panic_does_not_spoil_calculator"], "note": ""},
 {"property": "C65", "status": "proved", "theorems": ["C65_same_results", "C65_panic_changes_nothing", "C65_caught_panics_can_be_ignored"], "note": ""},
 {"property": "C66", "status": "proved", "theorems": ["C66_unique_path_is_returned", "C66_unique_total_is_returned"], "note": ""},
 {"property": "C67", "status": "proved", "theorems": ["C67_answers_after_files", "C67_files_work"], "note": ""},
 {"property": "C68", "status": "proved", "theorems": ["C68_queries_end", "C68_prepared_graphs_qualify", "C68_self_nested_shortcut_never_ends", "C68_circle_never_ends_unchecked"], "note": ""},
 {"property": "C69", "status": "proved", "theorems": ["C69_preparation_ends", "C69_release_preparation_returns", "C69_release_answers_are_paths", "C69_stored_weights"], "note": ""},
 {"property": "C70", "status": "proved", "theorems": ["C70_best_path_stays_best", "C70_only_edges_on_routes_count", "C70_small_changes", "C70_change_of_one_edge"], "note": ""},
 {"property": "C71", "status": "proved", "theorems": ["C71_queries_are_right", "C71_nothing_else_counts", "C71_files_are_safe", "C71_graphs_are_separate"], "note": ""},
 {"property": "C72", "status": "proved", "theorems": ["C72_same_query", "C72_search_effort", "C72_search_space", "C72_path_effort"], "note": ""},
 {"property": "C73", "status": "proved", "theorems": ["C73_same_preparation", "C73_limits", "C73_effort_with_order", "C73_effort"], "note": ""},
 {"property": "C74", "status": "proved", "theorems": ["C74_contract"], "note": ""},
 {"property": "C75", "status": "proved", "theorems": ["C75_valid_graphs_answer_right", "C75_well_formed_graphs_are_safe", "C75_triangles_are_needed", "C75_prepared_graphs_are_valid"], "note": ""},
 {"property": "C76", "status": "proved", "theorems": ["C76_same_graphs", "C76_same_preparations", "C76_same_preparations_with_order", "C76_same_queries", "C76_same_results", "C76_same_files", "C76_release_outcomes", "C76_release_outcomes_with_order", "C76_release_invalid_order", "C76_release_reuse", "C76_unknown_nodes_panic", "C76_release_sessions"], "note": ""},
 {"property": "C77", "status": "proved", "theorems": ["C77_random_graph", "C77_every_graph_arises", "C77_single_test", "C77_multi_test", "C77_tests_can_fail"], "note": "The random number generator is an arbitrary stream; gen_range is some number of its range. The number of edges is an argument (computed from the mean degree with floating point numbers in the code), and the final comparisons of counts are exact. At most 100 nodes, where the default limits cannot be reached; the tests use 50."},
 {"property": "C78", "status": "proved", "theorems": ["C78_performance_test", "C78_numbers_are_unique", "C78_tests_agree"], "note": "Builds with overflow checks. The clocks and printed lines of the tests are not modelled; the seeded generator is an arbitrary stream."},
 {"property": "C79", "status": "proved", "theorems": ["C79_weights_double", "C79_weights_double_and_succeed", "C79_nodes_are_close", "C79_overflow", "C79_default_parameters_overflow"], "note": ""},
 {"property": "C80", "status": "proved", "theorems": ["C80_same_or_overflow", "C80_room_for_path", "C80_room_for_graph", "C80_single_queries", "C80_single_room_for_graph", "C80_stack_is_exhausted"], "note": "The number of nested calls in the source is modelled, not the bytes of a frame; a compiler may turn the last call of a function into a jump and need fewer frames (the upper bounds stay valid)."},
 {"property": "C81", "status": "proved", "theorems": ["C81_unavoidable_edges", "C81_unique_walks_decide", "C81_hub_first_is_largest", "C81_hub_last_is_linear", "C81_order_decides_size"], "note": "Builds with overflow checks. Without them see C76: a preparation that does not overflow stores the same graph."},
 {"property": "C82", "status": "proved", "theorems": ["C82_higher_limit_can_save_effort", "C82_higher_limit_can_slow_queries"], "note": "The property is that the documented effects are not guaranteed; complements C63, which refutes the documented effect on the number of shortcuts."},
 {"property": "C83", "status": "proved", "theorems": ["C83_defaults", "C83_relative_size_is_not_all"], "note": "What the priorities mean for the whole order of contraction is C62."},
 {"property": "C84", "status": "proved", "theorems": ["C84_small_weights_certify", "C84_same_call", "C84_answers_right"], "note": "The stored weights are not accessible through the API but through the serialized graph (C44). Preparations by priority are reproduced by the checked build with the order they found."},
 {"property": "C85", "status": "proved", "theorems": ["C85_values_certify", "C85_release_64_to_release_32", "C85_fitting_values_suffice_refuted"], "note": "C85_fitting_values_suffice_refuted shows that the bound on the sums of a query is needed."},
 {"property": "C86", "status": "proved", "theorems": ["C86_same_input_graph", "C86_larger_target_builds", "C86_same_weights", "C86_same_weights_single"], "note": "From the exactness of the answers on each target and a comparison of the two runs of the input graph's methods. That the prepared graphs are the same on both targets is not claimed. Release builds are covered where C84 certifies that nothing wrapped around."},
 {"property": "C87", "status": "proved", "theorems": ["C87_program_is_right", "C87_program_returns", "C87_batch_is_right", "C87_update_is_right", "C87_batch_returns", "C87_update_returns", "C87_release_is_safe", "C87_batch_release_is_safe"], "note": "No oracle occurs in the statement: heap and queue are modelled algorithms (BinHeap.v, BinPq.v). The models of these two library algorithms are written after the published sources, which are not in /repo."},
 {"property": "C88", "status": "proved", "theorems": ["C88_saving_changes_nothing", "C88_prepared_on_64_used_on_32", "C88_bounds_are_needed"], "note": ""},
 {"property": "C89", "status": "proved", "theorems": ["C89_from_file_reads_dimacs", "C89_same_answers", "C89_not_conversely", "C89_bound_is_needed"], "note": ""},
 {"property": "C90", "status": "proved", "theorems": ["C90_release_is_safe", "C90_plain_file_to_path", "C90_dimacs_file_to_path", "C90_same_as_adding_the_arcs", "C90_malformed_files", "C90_small_files_return"], "note": ""}
]}
