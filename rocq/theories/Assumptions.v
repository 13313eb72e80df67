(** * Assumptions: what every theorem of MANIFEST.json rests on (generated by tools/gen_assumptions.py). *)
From Verif Require Prop_DK Prop_Iter Prop_Iter2 Prop_DKLarge Prop_C0 Prop_Serial Prop_Load Prop_Delay Prop_DelayExact Prop_Union Prop_Munro Prop_Bg Prop_Proc Prop_Algo Prop_SearchOrder Prop_Heavy Prop_PageRank Prop_Alias Prop_IterAsg Prop_BgFoot Prop_BgDel Prop_BgUB Prop_BgFew Prop_BgSerial Prop_DelayView Prop_BgView Prop_BgDelView Prop_MunroSerial Prop_Eq Prop_Cluster Prop_MunroView Prop_BgIter Prop_BgIterDel Prop_BgIter2 Prop_AlgoObj Prop_IterMod Prop_IterMod2 Prop_IterVal Prop_AlgoDel Prop_CountExact Prop_PageRank2 Prop_MunroTri Prop_AlgoAll Prop_BgHideDel Prop_BgHide Prop_Reclaim Prop_ProcDel Prop_CvLive Prop_PRFloat.

Print Assumptions Prop_DK.C01_contains_after_inserts.
Print Assumptions Prop_DK.C02_count_after_inserts.
Print Assumptions Prop_DK.C03_inserts_total.
Print Assumptions Prop_DK.C04_neighbours_after_inserts.
Print Assumptions Prop_Iter.C05_neighbour_iterator.
Print Assumptions Prop_Iter.C05_neighbour_iterator_inserts.
Print Assumptions Prop_Iter2.C05_beyond_int.
Print Assumptions Prop_Iter.C06_edge_iterator_inserts.
Print Assumptions Prop_Iter.C07_edge_iterator_partial.
Print Assumptions Prop_Iter.C07_refuted.
Print Assumptions Prop_Iter.C08_end_not_legal_partial.
Print Assumptions Prop_Iter.C08_refuted.
Print Assumptions Prop_Iter.C09_node_iterator.
Print Assumptions Prop_Iter2.C09_beyond_int.
Print Assumptions Prop_DK.C10_contains_exact.
Print Assumptions Prop_DK.C11_delete_frame_partial.
Print Assumptions Prop_DK.C11_refuted.
Print Assumptions Prop_DK.C12_delete_safe_partial.
Print Assumptions Prop_DK.C12_refuted.
Print Assumptions Prop_DK.C13_count_partial.
Print Assumptions Prop_DK.C13_refuted.
Print Assumptions Prop_DK.C14_add_safe_partial.
Print Assumptions Prop_DK.C14_refuted.
Print Assumptions Prop_DK.C15_throw_changes_nothing.
Print Assumptions Prop_DK.C15_empty_graph_throws.
Print Assumptions Prop_DKLarge.C16_large_partial.
Print Assumptions Prop_DK.C16_no_throw_partial.
Print Assumptions Prop_DK.C16_refuted.
Print Assumptions Prop_DK.C17_neighbours_partial.
Print Assumptions Prop_DK.C17_refuted.
Print Assumptions Prop_C0.C18_buffer_is_a_set.
Print Assumptions Prop_C0.C18_insert_defined_iff_room.
Print Assumptions Prop_C0.C19_buffer_round_trip.
Print Assumptions Prop_C0.C20_save_after_delete_partial.
Print Assumptions Prop_Serial.C21_round_trip.
Print Assumptions Prop_Serial.C22_reuse_partial.
Print Assumptions Prop_Serial.C22_refuted.
Print Assumptions Prop_Load.C53_load_exact.
Print Assumptions Prop_Load.C53_replaces_iff.
Print Assumptions Prop_Serial.C23_first_crash_partial.
Print Assumptions Prop_Serial.C23_refuted.
Print Assumptions Prop_Delay.C24_delay_inserts_exact.
Print Assumptions Prop_DelayExact.C25_exact.
Print Assumptions Prop_DelayExact.C25_limit.
Print Assumptions Prop_Delay.C25_in_time_partial.
Print Assumptions Prop_Delay.C25_refuted.
Print Assumptions Prop_Delay.C26_calm_exact_partial.
Print Assumptions Prop_Delay.C26_refuted.
Print Assumptions Prop_Union.C27_union_correct.
Print Assumptions Prop_Union.C27_union_answers.
Print Assumptions Prop_Munro.C28_contains_partial.
Print Assumptions Prop_Munro.C28_hidden_partial.
Print Assumptions Prop_Munro.C28_count_partial.
Print Assumptions Prop_Munro.C28_refuted.
Print Assumptions Prop_Munro.C28_count_refuted.
Print Assumptions Prop_Munro.C29_neighbours_partial.
Print Assumptions Prop_Munro.C29_refuted_delete.
Print Assumptions Prop_Munro.C29_refuted_fresh.
Print Assumptions Prop_Munro.C29_refuted_twice.
Print Assumptions Prop_Bg.C30_background.
Print Assumptions Prop_Bg.C30_nothing_lost.
Print Assumptions Prop_Bg.C31_visible_partial.
Print Assumptions Prop_Bg.C31_missed_partial.
Print Assumptions Prop_Bg.C31_count_partial.
Print Assumptions Prop_Bg.C31_refuted.
Print Assumptions Prop_Bg.C31_count_refuted.
Print Assumptions Prop_Proc.C32_refuted_blocked.
Print Assumptions Prop_Proc.C32_refuted_dropped.
Print Assumptions Prop_Proc.C32_refuted_stolen.
Print Assumptions Prop_Proc.C32_refuted_afterwards.
Print Assumptions Prop_Proc.C64_only_graph.
Print Assumptions Prop_Algo.C33_bfs.
Print Assumptions Prop_Algo.C33_bfs_any_history.
Print Assumptions Prop_SearchOrder.C33_order_exact.
Print Assumptions Prop_Algo.C34_dfs.
Print Assumptions Prop_Algo.C34_dfs_any_history.
Print Assumptions Prop_Algo.C35_depth_first_partial.
Print Assumptions Prop_Algo.C35_refuted.
Print Assumptions Prop_SearchOrder.C35_order_exact.
Print Assumptions Prop_Algo.C36_hash_triangles.
Print Assumptions Prop_Algo.C37_dummy_triangles_partial.
Print Assumptions Prop_Algo.C37_dummy_counts.
Print Assumptions Prop_Algo.C37_refuted.
Print Assumptions Prop_Algo.C38_heavy_sound_partial.
Print Assumptions Prop_Algo.C38_refuted.
Print Assumptions Prop_Heavy.C38_heavy_counts.
Print Assumptions Prop_Heavy.C38_none_heavy.
Print Assumptions Prop_PageRank.C39_pagerank_mass.
Print Assumptions Prop_PageRank.C39_pagerank_mass_inserts.
Print Assumptions Prop_PageRank.C40_distribution_partial.
Print Assumptions Prop_PageRank.C40_refuted_dangling.
Print Assumptions Prop_PageRank.C40_refuted_large.
Print Assumptions Prop_Algo.C41_key_injective.
Print Assumptions Prop_Algo.C41_table.
Print Assumptions Prop_Alias.C42_copies_independent.
Print Assumptions Prop_Alias.C42_insertion_local.
Print Assumptions Prop_Alias.C42_inserts.
Print Assumptions Prop_Alias.C42_insertion_frame.
Print Assumptions Prop_Alias.C43_refuted.
Print Assumptions Prop_Alias.C43_leak_exact.
Print Assumptions Prop_Alias.C43_deletion_frame_partial.
Print Assumptions Prop_DK.C44_delete_outcome.
Print Assumptions Prop_DK.C45_contains_sound.
Print Assumptions Prop_DK.C46_neighbours_sound.
Print Assumptions Prop_DK.C47_count_bounds.
Print Assumptions Prop_DK.C48_add_undefined_iff.
Print Assumptions Prop_DK.C49_tree_independence.
Print Assumptions Prop_Iter.C50_edge_begin_again_partial.
Print Assumptions Prop_IterAsg.C50_begin_again_exact.
Print Assumptions Prop_Iter.C50_refuted.
Print Assumptions Prop_Iter.C51_edge_iterator_safe.
Print Assumptions Prop_Serial.C52_after_deletions_partial.
Print Assumptions Prop_Serial.C52_refuted.
Print Assumptions Prop_Serial.C53_load_replaces_partial.
Print Assumptions Prop_Serial.C53_refuted.
Print Assumptions Prop_Delay.C54_round_trip_partial.
Print Assumptions Prop_Delay.C54_load_then_add_undefined.
Print Assumptions Prop_Delay.C54_refuted.
Print Assumptions Prop_Delay.C55_delay_history_exact.
Print Assumptions Prop_Union.C56_in_time_partial.
Print Assumptions Prop_Union.C56_calls.
Print Assumptions Prop_Union.C56_refuted.
Print Assumptions Prop_PageRank.C39_pagerank_returns.
Print Assumptions Prop_Munro.C58_insert.
Print Assumptions Prop_Munro.C59_in_time_partial.
Print Assumptions Prop_Munro.C59_short_partial.
Print Assumptions Prop_Munro.C59_refuted.
Print Assumptions Prop_Bg.C60_no_race_partial.
Print Assumptions Prop_Bg.C60_the_race.
Print Assumptions Prop_Bg.C60_refuted.
Print Assumptions Prop_BgFoot.C60_call_footprint.
Print Assumptions Prop_BgFoot.C60_main_footprint.
Print Assumptions Prop_BgFoot.C60_main_writes.
Print Assumptions Prop_BgFoot.C60_back_footprint.
Print Assumptions Prop_BgFoot.C60_back_writes.
Print Assumptions Prop_BgFoot.C60_back_private.
Print Assumptions Prop_BgFoot.C60_main_private.
Print Assumptions Prop_BgFoot.C60_main_tight.
Print Assumptions Prop_BgFoot.C60_back_tight.
Print Assumptions Prop_Bg.C61_calls_return.
Print Assumptions Prop_Bg.C61_merges_end.
Print Assumptions Prop_Bg.C62_refuted.
Print Assumptions Prop_BgDel.C62_deleted_partial.
Print Assumptions Prop_BgDel.C62_answers_partial.
Print Assumptions Prop_BgDel.C62_count_partial.
Print Assumptions Prop_Bg.C63_safe_partial.
Print Assumptions Prop_Bg.C63_waits.
Print Assumptions Prop_Bg.C63_grace_partial.
Print Assumptions Prop_Bg.C63_ends.
Print Assumptions Prop_Bg.C63_refuted.
Print Assumptions Prop_Proc.C65_returns.
Print Assumptions Prop_Bg.C65_calls_return.
Print Assumptions Prop_Proc.C66_destroyed.
Print Assumptions Prop_Proc.C67_no_lost_wakeup.
Print Assumptions Prop_Proc.C67_mutex.
Print Assumptions Prop_BgDel.C68_refuted.
Print Assumptions Prop_BgDel.C69_insertions_partial.
Print Assumptions Prop_BgUB.C91_only_way.
Print Assumptions Prop_BgUB.C91_spared.
Print Assumptions Prop_BgFew.C69_few_deletions_partial.
Print Assumptions Prop_BgDel.C69_refuted.
Print Assumptions Prop_BgDel.C70_calls_return.
Print Assumptions Prop_BgDel.C71_nothing_lost.
Print Assumptions Prop_BgDel.C72_nothing_invented.
Print Assumptions Prop_BgSerial.C73_insertions_partial.
Print Assumptions Prop_BgSerial.C73_deletions_partial.
Print Assumptions Prop_BgSerial.C73_refuted.
Print Assumptions Prop_BgSerial.C73_deleted_refuted.
Print Assumptions Prop_BgSerial.C74_default_partial.
Print Assumptions Prop_BgSerial.C74_true_refuted.
Print Assumptions Prop_BgSerial.C74_false_refuted.
Print Assumptions Prop_DelayView.C75_delay_traversals.
Print Assumptions Prop_DelayView.C75_calm_partial.
Print Assumptions Prop_DelayView.C75_refuted.
Print Assumptions Prop_BgView.C76_idle_partial.
Print Assumptions Prop_BgView.C76_each_once_partial.
Print Assumptions Prop_BgView.C76_busy_partial.
Print Assumptions Prop_BgDelView.C76_deletions_partial.
Print Assumptions Prop_BgDelView.C76_deletions_exact_partial.
Print Assumptions Prop_BgView.C76_missed_refuted.
Print Assumptions Prop_BgView.C76_twice_refuted.
Print Assumptions Prop_BgView.C76_deleted_refuted.
Print Assumptions Prop_MunroSerial.C77_round_trip_partial.
Print Assumptions Prop_MunroSerial.C77_refuted.
Print Assumptions Prop_MunroSerial.C77_refuted_neighbour.
Print Assumptions Prop_Eq.C78_equal_partial.
Print Assumptions Prop_Eq.C78_defined_iff.
Print Assumptions Prop_Eq.C78_reflexive.
Print Assumptions Prop_Eq.C78_refuted.
Print Assumptions Prop_Eq.C78_undefined_refuted.
Print Assumptions Prop_Eq.C78_order_refuted.
Print Assumptions Prop_Eq.C78_incremental_partial.
Print Assumptions Prop_Eq.C78_background_partial.
Print Assumptions Prop_Eq.C78_background_refuted.
Print Assumptions Prop_Cluster.C79_clustering_partial.
Print Assumptions Prop_Cluster.C79_refuted.
Print Assumptions Prop_Cluster.C79_zero_refuted.
Print Assumptions Prop_Heavy.C79_value.
Print Assumptions Prop_MunroView.C80_idle_partial.
Print Assumptions Prop_MunroView.C80_each_once_partial.
Print Assumptions Prop_MunroView.C80_busy_partial.
Print Assumptions Prop_MunroView.C80_missed_refuted.
Print Assumptions Prop_MunroView.C80_twice_refuted.
Print Assumptions Prop_BgIter.C81_edges_partial.
Print Assumptions Prop_BgIter.C81_neighbours_partial.
Print Assumptions Prop_BgIterDel.C81_edges_deletions_partial.
Print Assumptions Prop_BgIterDel.C81_edges_exact_deletions_partial.
Print Assumptions Prop_BgIterDel.C81_neighbours_deletions_partial.
Print Assumptions Prop_BgIter.C81_race_exact.
Print Assumptions Prop_BgIter2.C81_dangling_exact.
Print Assumptions Prop_BgIter2.C81_footprint.
Print Assumptions Prop_BgIter.C81_dangling_refuted.
Print Assumptions Prop_BgIter.C81_torn_refuted.
Print Assumptions Prop_AlgoObj.C82_inserts_partial.
Print Assumptions Prop_AlgoObj.C82_snapshot_partial.
Print Assumptions Prop_AlgoObj.C82_frozen_partial.
Print Assumptions Prop_AlgoObj.C82_refuted.
Print Assumptions Prop_IterMod.C83_edges_partial.
Print Assumptions Prop_IterMod.C83_edges_inserts_partial.
Print Assumptions Prop_IterMod.C83_neighbours_partial.
Print Assumptions Prop_IterMod.C83_delete_neighbours_partial.
Print Assumptions Prop_IterMod2.C83_twice_refuted.
Print Assumptions Prop_IterMod2.C83_dangling_refuted.
Print Assumptions Prop_IterMod2.C83_delete_refuted.
Print Assumptions Prop_IterVal.C84_edges_partial.
Print Assumptions Prop_IterVal.C84_nodes.
Print Assumptions Prop_IterVal.C84_neighbours.
Print Assumptions Prop_IterAsg.C84_next_total.
Print Assumptions Prop_IterAsg.C84_assign_exact.
Print Assumptions Prop_IterAsg.C84_assign_one_tree.
Print Assumptions Prop_IterAsg.C84_assign_refuted.
Print Assumptions Prop_IterAsg.C84_post_refuted.
Print Assumptions Prop_AlgoDel.C85_traversals_partial.
Print Assumptions Prop_AlgoDel.C85_counts_partial.
Print Assumptions Prop_AlgoDel.C85_hash_exact.
Print Assumptions Prop_CountExact.C85_heavy_exact.
Print Assumptions Prop_CountExact.C85_dummy_exact.
Print Assumptions Prop_CountExact.C85_clustering_exact.
Print Assumptions Prop_AlgoDel.C85_refuted.
Print Assumptions Prop_PageRank2.C86_pagerank_exact.
Print Assumptions Prop_PageRank2.C86_pagerank_inserts.
Print Assumptions Prop_PageRank2.C86_iterations.
Print Assumptions Prop_PageRank2.C87_pagerank_limit.
Print Assumptions Prop_MunroTri.C88_hash_exact.
Print Assumptions Prop_MunroTri.C88_hash_idle_partial.
Print Assumptions Prop_MunroTri.C88_dummy_idle_partial.
Print Assumptions Prop_MunroTri.C88_pagerank_exact.
Print Assumptions Prop_CountExact.C88_heavy_exact.
Print Assumptions Prop_MunroTri.C88_refuted.
Print Assumptions Prop_AlgoAll.C89_delay.
Print Assumptions Prop_AlgoAll.C89_delay_calm_partial.
Print Assumptions Prop_AlgoAll.C89_deletions_partial.
Print Assumptions Prop_AlgoAll.C89_background_partial.
Print Assumptions Prop_BgDelView.C89_background_deletions_partial.
Print Assumptions Prop_BgHideDel.C90_begins.
Print Assumptions Prop_BgHideDel.C90_wait_deletions_partial.
Print Assumptions Prop_BgHide.C90_when.
Print Assumptions Prop_BgHide.C90_wait_partial.
Print Assumptions Prop_BgHide.C90_refuted.
Print Assumptions Prop_Reclaim.C92_deletion.
Print Assumptions Prop_Reclaim.C92_addition.
Print Assumptions Prop_Reclaim.C92_total_partial.
Print Assumptions Prop_Reclaim.C92_refuted.
Print Assumptions Prop_Reclaim.C93_background_partial.
Print Assumptions Prop_Reclaim.C93_delay_refuted.
Print Assumptions Prop_ProcDel.C94_follows.
Print Assumptions Prop_ProcDel.C94_answers.
Print Assumptions Prop_ProcDel.C94_count.
Print Assumptions Prop_ProcDel.C94_few_deletions.
Print Assumptions Prop_ProcDel.C94_only_way.
Print Assumptions Prop_ProcDel.C94_returns.
Print Assumptions Prop_ProcDel.C94_destroyed.
Print Assumptions Prop_CvLive.C95_returns.
Print Assumptions Prop_CvLive.C95_never.
Print Assumptions Prop_CvLive.C95_first_destruction.
Print Assumptions Prop_CvLive.C95_threads_end.
Print Assumptions Prop_CvLive.C95_after_destruction.
Print Assumptions Prop_PRFloat.C96_pagerank_float.
Print Assumptions Prop_PRFloat.C96_pagerank_float_inserts.
Print Assumptions Prop_PRFloat.C96_pagerank_float_sum.
Print Assumptions Prop_PRFloat.C96_pagerank_float_sum_inserts.
Print Assumptions Prop_PRFloat.C96_no_dangling.
Print Assumptions Prop_PRFloat.C96_distribution.
Print Assumptions Prop_PRFloat.C96_refuted_no_edges.
