# What `Print Assumptions` lists

Generated by tools/gen_assumptions.py from the output of rocq/theories/Assumptions.v: one `Print Assumptions` for each theorem of MANIFEST.json. Every axiom is declared in the standard library of Coq 8.16.1; none is declared here.

## Closed under the global context (162 theorems)

C01_contains_after_inserts, C02_count_after_inserts, C03_inserts_total, C04_neighbours_after_inserts, C05_neighbour_iterator, C05_neighbour_iterator_inserts, C05_beyond_int, C06_edge_iterator_inserts, C08_end_not_legal_partial, C08_refuted, C09_node_iterator, C09_beyond_int, C10_contains_exact, C11_delete_frame_partial, C15_throw_changes_nothing, C15_empty_graph_throws, C18_buffer_is_a_set, C18_insert_defined_iff_room, C19_buffer_round_trip, C20_save_after_delete_partial, C21_round_trip, C22_reuse_partial, C53_load_exact, C53_replaces_iff, C23_first_crash_partial, C24_delay_inserts_exact, C27_union_correct, C27_union_answers, C28_contains_partial, C28_hidden_partial, C28_count_partial, C29_neighbours_partial, C29_refuted_delete, C29_refuted_fresh, C30_background, C30_nothing_lost, C31_visible_partial, C31_missed_partial, C31_count_partial, C64_only_graph, C33_bfs, C33_bfs_any_history, C33_order_exact, C34_dfs, C34_dfs_any_history, C35_depth_first_partial, C35_refuted, C35_order_exact, C36_hash_triangles, C37_dummy_triangles_partial, C37_dummy_counts, C37_refuted, C38_heavy_sound_partial, C38_refuted, C38_heavy_counts, C38_none_heavy, C41_key_injective, C41_table, C42_copies_independent, C42_insertion_local, C42_inserts, C42_insertion_frame, C43_leak_exact, C43_deletion_frame_partial, C45_contains_sound, C46_neighbours_sound, C47_count_bounds, C48_add_undefined_iff, C49_tree_independence, C53_load_replaces_partial, C54_load_then_add_undefined, C55_delay_history_exact, C56_in_time_partial, C56_calls, C56_refuted, C58_insert, C60_no_race_partial, C60_the_race, C60_call_footprint, C60_main_footprint, C60_main_writes, C60_back_footprint, C60_back_writes, C60_back_private, C60_main_private, C61_calls_return, C61_merges_end, C62_deleted_partial, C62_answers_partial, C62_count_partial, C63_safe_partial, C63_waits, C63_grace_partial, C63_ends, C63_refuted, C65_returns, C65_calls_return, C66_destroyed, C67_no_lost_wakeup, C67_mutex, C69_insertions_partial, C91_only_way, C91_spared, C69_few_deletions_partial, C70_calls_return, C71_nothing_lost, C72_nothing_invented, C73_insertions_partial, C73_deletions_partial, C74_default_partial, C75_delay_traversals, C76_idle_partial, C76_each_once_partial, C76_busy_partial, C76_deletions_partial, C76_deletions_exact_partial, C77_round_trip_partial, C78_equal_partial, C78_defined_iff, C78_reflexive, C78_incremental_partial, C78_background_partial, C80_idle_partial, C80_each_once_partial, C80_busy_partial, C81_edges_partial, C81_neighbours_partial, C81_edges_deletions_partial, C81_edges_exact_deletions_partial, C81_neighbours_deletions_partial, C81_race_exact, C81_dangling_exact, C81_footprint, C82_inserts_partial, C82_snapshot_partial, C82_frozen_partial, C83_edges_partial, C83_edges_inserts_partial, C83_neighbours_partial, C83_delete_neighbours_partial, C84_nodes, C84_neighbours, C88_hash_exact, C88_hash_idle_partial, C88_dummy_idle_partial, C90_begins, C90_wait_deletions_partial, C90_when, C90_wait_partial, C92_addition, C94_follows, C94_answers, C94_count, C94_few_deletions, C94_only_way, C94_returns, C94_destroyed, C95_returns, C95_never, C95_first_destruction, C95_threads_end, C95_after_destruction

## `ClassicalDedekindReals.sig_forall_dec`, `FunctionalExtensionality.functional_extensionality_dep` (15 theorems)

C39_pagerank_mass, C39_pagerank_mass_inserts, C40_distribution_partial, C40_refuted_dangling, C40_refuted_large, C39_pagerank_returns, C79_clustering_partial, C79_refuted, C79_zero_refuted, C79_value, C86_pagerank_exact, C86_pagerank_inserts, C86_iterations, C88_pagerank_exact, C88_heavy_exact

## `ClassicalDedekindReals.sig_forall_dec`, `ClassicalDedekindReals.sig_not_dec`, `FunctionalExtensionality.functional_extensionality_dep` (4 theorems)

C87_pagerank_limit, C89_delay, C89_background_partial, C89_background_deletions_partial

## `ClassicalDedekindReals.sig_forall_dec`, `ClassicalDedekindReals.sig_not_dec`, `Classical_Prop.classic`, `FunctionalExtensionality.functional_extensionality_dep` (103 theorems)

C07_edge_iterator_partial, C07_refuted, C11_refuted, C12_delete_safe_partial, C12_refuted, C13_count_partial, C13_refuted, C14_add_safe_partial, C14_refuted, C16_large_partial, C16_no_throw_partial, C16_refuted, C17_neighbours_partial, C17_refuted, C22_refuted, C23_refuted, C25_exact, C25_limit, C25_in_time_partial, C25_refuted, C26_calm_exact_partial, C26_refuted, C28_refuted, C28_count_refuted, C29_refuted_twice, C31_refuted, C31_count_refuted, C32_refuted_blocked, C32_refuted_dropped, C32_refuted_stolen, C32_refuted_afterwards, C43_refuted, C44_delete_outcome, C50_edge_begin_again_partial, C50_begin_again_exact, C50_refuted, C51_edge_iterator_safe, C52_after_deletions_partial, C52_refuted, C53_refuted, C54_round_trip_partial, C54_refuted, C59_in_time_partial, C59_short_partial, C59_refuted, C60_refuted, C60_main_tight, C60_back_tight, C62_refuted, C68_refuted, C69_refuted, C73_refuted, C73_deleted_refuted, C74_true_refuted, C74_false_refuted, C75_calm_partial, C75_refuted, C76_missed_refuted, C76_twice_refuted, C76_deleted_refuted, C77_refuted, C77_refuted_neighbour, C78_refuted, C78_undefined_refuted, C78_order_refuted, C78_background_refuted, C80_missed_refuted, C80_twice_refuted, C81_dangling_refuted, C81_torn_refuted, C82_refuted, C83_twice_refuted, C83_dangling_refuted, C83_delete_refuted, C84_edges_partial, C84_next_total, C84_assign_exact, C84_assign_one_tree, C84_assign_refuted, C84_post_refuted, C85_traversals_partial, C85_counts_partial, C85_hash_exact, C85_heavy_exact, C85_dummy_exact, C85_clustering_exact, C85_refuted, C88_refuted, C89_delay_calm_partial, C89_deletions_partial, C90_refuted, C92_deletion, C92_total_partial, C92_refuted, C93_background_partial, C93_delay_refuted, C96_pagerank_float, C96_pagerank_float_inserts, C96_pagerank_float_sum, C96_pagerank_float_sum_inserts, C96_no_dangling, C96_distribution, C96_refuted_no_edges
