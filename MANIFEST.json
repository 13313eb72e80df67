{
 "claims": [
  {
   "property": "C01",
   "status": "proved",
   "theorems": [
    "C01_contains_after_inserts"
   ],
   "note": "any rounding of the thresholds except MAXSZ(m,8)=2m, which is exact"
  },
  {
   "property": "C02",
   "status": "proved",
   "theorems": [
    "C02_count_after_inserts"
   ],
   "note": ""
  },
  {
   "property": "C03",
   "status": "proved",
   "theorems": [
    "C03_inserts_total"
   ],
   "note": ""
  },
  {
   "property": "C04",
   "status": "proved",
   "theorems": [
    "C04_neighbours_after_inserts"
   ],
   "note": ""
  },
  {
   "property": "C05",
   "status": "proved",
   "theorems": [
    "C05_neighbour_iterator",
    "C05_neighbour_iterator_inserts",
    "C05_beyond_int"
   ],
   "note": "any history; n <= 2^31 (from 2^31 on the int wraps: C05_beyond_int)"
  },
  {
   "property": "C06",
   "status": "proved",
   "theorems": [
    "C06_edge_iterator_inserts"
   ],
   "note": ""
  },
  {
   "property": "C07",
   "status": "partial",
   "theorems": [
    "C07_edge_iterator_partial",
    "C07_refuted"
   ],
   "note": "false of the code: a deleted buffered edge is still visited; exact when no deleted edge occupies a buffer slot"
  },
  {
   "property": "C08",
   "status": "partial",
   "theorems": [
    "C08_end_not_legal_partial",
    "C08_refuted"
   ],
   "note": "false of the code above 9999999 vertices; true below"
  },
  {
   "property": "C09",
   "status": "proved",
   "theorems": [
    "C09_node_iterator",
    "C09_beyond_int"
   ],
   "note": "n < 2^31; from 2^31 on the loop is empty (C09_beyond_int)"
  },
  {
   "property": "C10",
   "status": "proved",
   "theorems": [
    "C10_contains_exact"
   ],
   "note": "for every threshold values"
  },
  {
   "property": "C11",
   "status": "partial",
   "theorems": [
    "C11_delete_frame_partial",
    "C11_refuted"
   ],
   "note": "false of the code for the self-loop (1,1) only: proved for every other edge, counterexample proved"
  },
  {
   "property": "C12",
   "status": "partial",
   "theorems": [
    "C12_delete_safe_partial",
    "C12_refuted"
   ],
   "note": "false of the code: null dereference; safe whenever the buffer is not empty; exact condition is C44"
  },
  {
   "property": "C13",
   "status": "partial",
   "theorems": [
    "C13_count_partial",
    "C13_refuted"
   ],
   "note": "false of the code; exact in calm and benign histories; bounds are C47"
  },
  {
   "property": "C14",
   "status": "partial",
   "theorems": [
    "C14_add_safe_partial",
    "C14_refuted"
   ],
   "note": "false of the code; exact condition is C48"
  },
  {
   "property": "C15",
   "status": "proved",
   "theorems": [
    "C15_throw_changes_nothing",
    "C15_empty_graph_throws"
   ],
   "note": ""
  },
  {
   "property": "C16",
   "status": "partial",
   "theorems": [
    "C16_large_partial",
    "C16_no_throw_partial",
    "C16_refuted"
   ],
   "note": "false of the code on small graphs (3 vertices); proved for every history on 32768 vertices or more, and below that with fewer than n-1 deletions"
  },
  {
   "property": "C17",
   "status": "partial",
   "theorems": [
    "C17_neighbours_partial",
    "C17_refuted"
   ],
   "note": "false of the code; exact in calm and benign histories; always sound (C46)"
  },
  {
   "property": "C18",
   "status": "proved",
   "theorems": [
    "C18_buffer_is_a_set",
    "C18_insert_defined_iff_room"
   ],
   "note": "exact for every completing history; definedness characterised"
  },
  {
   "property": "C19",
   "status": "proved",
   "theorems": [
    "C19_buffer_round_trip"
   ],
   "note": ""
  },
  {
   "property": "C20",
   "status": "partial",
   "theorems": [
    "C20_save_after_delete_partial"
   ],
   "note": "false of the code: save is undefined exactly when a slot was freed"
  },
  {
   "property": "C21",
   "status": "proved",
   "theorems": [
    "C21_round_trip"
   ],
   "note": "also: the loaded graph behaves like the original under further insertions"
  },
  {
   "property": "C22",
   "status": "partial",
   "theorems": [
    "C22_reuse_partial",
    "C22_refuted",
    "C53_load_exact",
    "C53_replaces_iff"
   ],
   "note": "false of the code: stale tree files; exact when no stale file is in the way (cleared directory, same graph again)"
  },
  {
   "property": "C23",
   "status": "partial",
   "theorems": [
    "C23_first_crash_partial",
    "C23_refuted"
   ],
   "note": "false of the code over an earlier snapshot; proved for the first snapshot, every crash point"
  },
  {
   "property": "C24",
   "status": "proved",
   "theorems": [
    "C24_delay_inserts_exact"
   ],
   "note": "every threshold values, every completing list of insertions"
  },
  {
   "property": "C25",
   "status": "partial",
   "theorems": [
    "C25_exact",
    "C25_limit",
    "C25_in_time_partial",
    "C25_refuted"
   ],
   "note": "false of the code for 18 small numbers of vertices (8 vertices: the 25th new edge reaches assert(false)); C25_exact proves that it holds for exactly the others, C25_limit gives the number of edges that fit; histories with deletions are not covered"
  },
  {
   "property": "C26",
   "status": "partial",
   "theorems": [
    "C26_calm_exact_partial",
    "C26_refuted"
   ],
   "note": "false of the code in four ways; exact in calm histories; see also C55"
  },
  {
   "property": "C27",
   "status": "proved",
   "theorems": [
    "C27_union_correct",
    "C27_union_answers"
   ],
   "note": "bit-identical to the tree built from all edges; every number of calls; result below 1431655764 bits in all"
  },
  {
   "property": "C28",
   "status": "partial",
   "theorems": [
    "C28_contains_partial",
    "C28_hidden_partial",
    "C28_count_partial",
    "C28_refuted",
    "C28_count_refuted"
   ],
   "note": "False as stated (C28_refuted: 12 insertions, 16 vertices; C28_count_refuted: an edge counted twice). Proved: contains is sound always and exact whenever no union is in progress; an inserted edge is hidden only while a union is in progress and only if it was in the buffer when that union began and not inserted again since; the count lies between the distinct insertions and the insertions, exact without repetitions."
  },
  {
   "property": "C29",
   "status": "partial",
   "theorems": [
    "C29_neighbours_partial",
    "C29_refuted_delete",
    "C29_refuted_fresh",
    "C29_refuted_twice"
   ],
   "note": "False as stated: del_edge does nothing, an empty graph lists 0 as a neighbour of 0, the last flushed edge is listed twice. Proved: what list_neighbour does list, sound up to (0,0), complete whenever no union is in progress."
  },
  {
   "property": "C30",
   "status": "proved",
   "theorems": [
    "C30_background",
    "C30_nothing_lost"
   ],
   "note": "Every schedule; queries answered while no merge is going on are exact; what a query misses during a merge: C31."
  },
  {
   "property": "C31",
   "status": "partial",
   "theorems": [
    "C31_visible_partial",
    "C31_missed_partial",
    "C31_count_partial",
    "C31_refuted",
    "C31_count_refuted"
   ],
   "note": "False as stated: during a merge, contains misses the edges that were in the buffer when the merge began (C31_refuted: 2 insertions), and such an edge inserted again is stored and counted twice. Proved: exactly which edges are seen; bounds on the count, exact without repetitions."
  },
  {
   "property": "C32",
   "status": "partial",
   "theorems": [
    "C32_refuted_blocked",
    "C32_refuted_dropped",
    "C32_refuted_stolen",
    "C32_refuted_afterwards",
    "C64_only_graph"
   ],
   "note": "False as stated, in four ways: destroying one graph blocks another for ever; constructing one discards a pending merge of another; the thread of one takes the work of another (undefined behaviour); a graph constructed after another was destroyed can be served by the thread of the destroyed one (use after destruction). Proved for the only graph of a process: C64-C66."
  },
  {
   "property": "C33",
   "status": "proved",
   "theorems": [
    "C33_bfs",
    "C33_bfs_any_history",
    "C33_order_exact"
   ],
   "note": "n <= 2^31; the exact order (C33_order_exact); for every history, with respect to the neighbour lists the graph returns"
  },
  {
   "property": "C34",
   "status": "proved",
   "theorems": [
    "C34_dfs",
    "C34_dfs_any_history"
   ],
   "note": "n <= 2^31"
  },
  {
   "property": "C35",
   "status": "partial",
   "theorems": [
    "C35_depth_first_partial",
    "C35_refuted",
    "C35_order_exact"
   ],
   "note": "false of the code (vertices are marked when pushed); C35_order_exact: exactly which order the code gives; proved when every vertex has at most one in-neighbour"
  },
  {
   "property": "C36",
   "status": "proved",
   "theorems": [
    "C36_hash_triangles"
   ],
   "note": "n < 2^31, edge (9999999,9999999) absent (it is the end marker of the edge iterator), count below 2^31 (int)"
  },
  {
   "property": "C37",
   "status": "partial",
   "theorems": [
    "C37_dummy_triangles_partial",
    "C37_dummy_counts",
    "C37_refuted"
   ],
   "note": "false of the code when there are self-loops; exact count given in general"
  },
  {
   "property": "C38",
   "status": "partial",
   "theorems": [
    "C38_heavy_sound_partial",
    "C38_refuted",
    "C38_heavy_counts",
    "C38_none_heavy"
   ],
   "note": "false of the code (C38_heavy_counts: exactly what it counts): it tests edge u->v2 instead of v2->u, so a directed triangle may count 0"
  },
  {
   "property": "C39",
   "status": "proved",
   "theorems": [
    "C39_pagerank_mass",
    "C39_pagerank_mass_inserts"
   ],
   "note": "exact real arithmetic"
  },
  {
   "property": "C40",
   "status": "partial",
   "theorems": [
    "C40_distribution_partial",
    "C40_refuted_dangling",
    "C40_refuted_large"
   ],
   "note": "false of the code with a dangling vertex, or with more than about 1/convergence vertices"
  },
  {
   "property": "C41",
   "status": "proved",
   "theorems": [
    "C41_key_injective",
    "C41_table"
   ],
   "note": ""
  },
  {
   "property": "C42",
   "status": "proved",
   "theorems": [
    "C42_copies_independent",
    "C42_insertion_local",
    "C42_inserts",
    "C42_insertion_frame"
   ],
   "note": "Alias.v: objects whose tree pointers refer to shared heap cells; copy construction, copy assignment and calls on several objects in any order. C42_copies_independent: each object equals, field by field and tree by tree, the graph its own calls alone produce. Assumes adj_forced is a query, except C42_inserts (insertions only, nothing assumed) and C42_insertion_frame (nothing assumed: only the inserted edge may be revived in a shared tree)."
  },
  {
   "property": "C43",
   "status": "partial",
   "theorems": [
    "C43_refuted",
    "C43_leak_exact",
    "C43_deletion_frame_partial"
   ],
   "note": "False: deleting from the original removes the edge from the copy's shared tree (C43_refuted, for every tree implementation). C43_leak_exact: it happens exactly when the edge is not in the original's buffer. C43_deletion_frame_partial: what is true: only the deleted edge can change, the count never does, list_neighbour loses nothing else."
  },
  {
   "property": "C44",
   "status": "proved",
   "theorems": [
    "C44_delete_outcome"
   ],
   "note": ""
  },
  {
   "property": "C45",
   "status": "proved",
   "theorems": [
    "C45_contains_sound"
   ],
   "note": ""
  },
  {
   "property": "C46",
   "status": "proved",
   "theorems": [
    "C46_neighbours_sound"
   ],
   "note": ""
  },
  {
   "property": "C47",
   "status": "proved",
   "theorems": [
    "C47_count_bounds"
   ],
   "note": ""
  },
  {
   "property": "C48",
   "status": "proved",
   "theorems": [
    "C48_add_undefined_iff"
   ],
   "note": ""
  },
  {
   "property": "C49",
   "status": "proved",
   "theorems": [
    "C49_tree_independence"
   ],
   "note": ""
  },
  {
   "property": "C50",
   "status": "partial",
   "theorems": [
    "C50_edge_begin_again_partial",
    "C50_begin_again_exact",
    "C50_refuted"
   ],
   "note": "false of the code when the buffer is empty and the member iterator was advanced by reference out of the first tree; C50_begin_again_exact: exactly then (or one edge, passed)"
  },
  {
   "property": "C51",
   "status": "proved",
   "theorems": [
    "C51_edge_iterator_safe"
   ],
   "note": ""
  },
  {
   "property": "C52",
   "status": "partial",
   "theorems": [
    "C52_after_deletions_partial",
    "C52_refuted"
   ],
   "note": "false of the code: trees above max_r are not written; the loaded graph has exactly the edges the neighbour lists show"
  },
  {
   "property": "C53",
   "status": "partial",
   "theorems": [
    "C53_load_replaces_partial",
    "C53_refuted",
    "C53_load_exact",
    "C53_replaces_iff"
   ],
   "note": "false of the code: trees of the target survive at levels the snapshot does not have; C53_load_exact: exactly what the loaded graph answers, for any histories, directory and target; C53_replaces_iff: exactly when it is right"
  },
  {
   "property": "C54",
   "status": "partial",
   "theorems": [
    "C54_round_trip_partial",
    "C54_load_then_add_undefined",
    "C54_refuted"
   ],
   "note": "queries are restored; the first add_edge on the loaded graph dereferences null whenever the snapshot has a tree at level 0 or 1; otherwise continuations complete (n >= 256) and are exact"
  },
  {
   "property": "C55",
   "status": "proved",
   "theorems": [
    "C55_delay_history_exact"
   ],
   "note": ""
  },
  {
   "property": "C56",
   "status": "partial",
   "theorems": [
    "C56_in_time_partial",
    "C56_calls",
    "C56_refuted"
   ],
   "note": "C56_calls: with t levels holding a tree, t/4 calls per edge of the new tree are enough. The claim is true when at most four levels hold a tree; false with five (witness); in DKtree_delay_munro the assertion has_finish() then fails"
  },
  {
   "property": "C57",
   "status": "proved",
   "theorems": [
    "C39_pagerank_returns"
   ],
   "note": "exact real arithmetic, at least one edge"
  },
  {
   "property": "C58",
   "status": "proved",
   "theorems": [
    "C58_insert"
   ],
   "note": "Within the 32-bit sizes of union_support (small_hist)."
  },
  {
   "property": "C59",
   "status": "partial",
   "theorems": [
    "C59_in_time_partial",
    "C59_short_partial",
    "C59_refuted"
   ],
   "note": "False as stated: C59_refuted is a run of 2453 distinct insertions on 1000 vertices (exact thresholds) whose last insertion fails the assertion. Proved: it cannot fail while the union in progress began with at most four trees, nor in any history of fewer than MAXSZ(n,4) insertions."
  },
  {
   "property": "C60",
   "status": "partial",
   "theorems": [
    "C60_no_race_partial",
    "C60_the_race",
    "C60_refuted",
    "C60_call_footprint",
    "C60_main_footprint",
    "C60_main_writes",
    "C60_back_footprint",
    "C60_back_writes",
    "C60_back_private",
    "C60_main_private",
    "C60_main_tight",
    "C60_back_tight"
   ],
   "note": "False as stated: list_neighbour reads max_r during a merge while the merging thread writes it. Proved: that is the only race, whatever the calls, and there is none without list_neighbour. The footprint theorems show that the access lists the race condition is about are complete and minimal: no step reads or changes a shared field it does not list, and all other fields are private to one thread; every listed access is made in some reached state."
  },
  {
   "property": "C61",
   "status": "proved",
   "theorems": [
    "C61_calls_return",
    "C61_merges_end"
   ],
   "note": ""
  },
  {
   "property": "C62",
   "status": "partial",
   "theorems": [
    "C62_refuted",
    "C62_deleted_partial",
    "C62_answers_partial",
    "C62_count_partial"
   ],
   "note": "False as stated: an edge inserted again while it is being merged is stored twice, del_edge removes one copy. Proved, every schedule: it holds for every edge that was never inserted while it was in the graph, whatever was done to the other edges; the count is exact if that holds of all edges; missing: edges inserted again while present (where it is false)."
  },
  {
   "property": "C63",
   "status": "partial",
   "theorems": [
    "C63_safe_partial",
    "C63_waits",
    "C63_grace_partial",
    "C63_ends",
    "C63_refuted"
   ],
   "note": "False as stated: the thread is detached and the destructor does not wait for it to leave its loop; wherever it is, there is a schedule in which it uses the destroyed object. Proved: in which schedules it is safe; no merge is running when the destructor ends; two steps of the thread before the end of the destructor suffice."
  },
  {
   "property": "C64",
   "status": "proved",
   "theorems": [
    "C64_only_graph"
   ],
   "note": ""
  },
  {
   "property": "C65",
   "status": "proved",
   "theorems": [
    "C65_returns",
    "C65_calls_return"
   ],
   "note": "17 steps of the merging thread, then 24 of the calling thread."
  },
  {
   "property": "C66",
   "status": "proved",
   "theorems": [
    "C66_destroyed"
   ],
   "note": "With C64_only_graph (no undefined behaviour at any time)."
  },
  {
   "property": "C67",
   "status": "proved",
   "theorems": [
    "C67_no_lost_wakeup",
    "C67_mutex"
   ],
   "note": ""
  },
  {
   "property": "C68",
   "status": "partial",
   "theorems": [
    "C68_refuted",
    "C69_insertions_partial",
    "C91_only_way",
    "C91_spared"
   ],
   "note": "False as stated, of both graphs: two inserted and deleted buffered edges and a third insertion leave the buffer (the flush is decided by the number of live edges, the slot by the number of insertions). Proved: defined without deletions, and exactly when it is undefined with them (C91)."
  },
  {
   "property": "C69",
   "status": "partial",
   "theorems": [
    "C69_insertions_partial",
    "C69_few_deletions_partial",
    "C69_refuted"
   ],
   "note": "False as stated, of both graphs (C69_refuted: 8 operations on 3 vertices, with the reference tree). Proved, under every schedule: never without deletions, nor in a run with fewer than n-1 calls of del_edge."
  },
  {
   "property": "C70",
   "status": "proved",
   "theorems": [
    "C70_calls_return"
   ],
   "note": "26 (edges+1) rounds, edges as reported before the call. Unless the run is undefined or the merging thread throws, which ends the process (C68, C69)."
  },
  {
   "property": "C71",
   "status": "proved",
   "theorems": [
    "C71_nothing_lost"
   ],
   "note": "For runs that are not undefined and in which the merging thread has not ended the process (C68, C69)."
  },
  {
   "property": "C72",
   "status": "proved",
   "theorems": [
    "C72_nothing_invented"
   ],
   "note": "For runs that are not undefined and in which the merging thread has not ended the process (C68, C69)."
  },
  {
   "property": "C73",
   "status": "partial",
   "theorems": [
    "C73_insertions_partial",
    "C73_deletions_partial",
    "C73_refuted",
    "C73_deleted_refuted"
   ],
   "note": "False as stated: the archive (with max_r) is written before serialize waits for the merge, so a merge that raises max_r loses edges; and a deleted slot of the buffer makes it undefined. Proved: insertions only and no merge in progress at the call; with deletions or a merge in progress, if serialize is defined and max_r is not raised."
  },
  {
   "property": "C74",
   "status": "partial",
   "theorems": [
    "C74_default_partial",
    "C74_true_refuted",
    "C74_false_refuted"
   ],
   "note": "False as stated: the default constructor leaves needs_work uninitialised and starts no merging thread. Proved: if the memory happens to hold false, all answers outside a merge are right; the first merge never ends."
  },
  {
   "property": "C75",
   "status": "partial",
   "theorems": [
    "C75_delay_traversals",
    "C75_calm_partial",
    "C75_refuted"
   ],
   "note": "False as stated with deletions: nine operations on 8 vertices leave an empty tree at which edge_begin() reads (C75_refuted; needs a tree whose unionOp leaves no marks). Proved: exact after any insertions, unions pending or not, and after calm deletions when the buffer holds no erased edge."
  },
  {
   "property": "C76",
   "status": "partial",
   "theorems": [
    "C76_idle_partial",
    "C76_each_once_partial",
    "C76_busy_partial",
    "C76_deletions_partial",
    "C76_deletions_exact_partial",
    "C76_missed_refuted",
    "C76_twice_refuted",
    "C76_deleted_refuted"
   ],
   "note": "False as stated: during a merge edges are missed; an edge inserted again during a merge is visited twice; deleted buffered edges are visited. Proved without deletions, every schedule: exact while no merge is going on (each edge once if inserted once); during a merge only inserted edges and all recent ones. With deletions, every schedule, in a state with no erased slot in the buffer and no tree emptied by deletions: the same, a deleted edge never visited unless it was inserted while it was in the graph. Missing: the states excluded."
  },
  {
   "property": "C77",
   "status": "partial",
   "theorems": [
    "C77_round_trip_partial",
    "C77_refuted",
    "C77_refuted_neighbour"
   ],
   "note": "False as stated: a union in progress is not saved, and its edges are lost although the count says otherwise and operator== holds; load also resets the last inserted edge, which brings back the neighbour 0 of vertex 0. Proved: the loaded graph equals the original and contains nothing else; if no union is in progress, both go on alike for ever."
  },
  {
   "property": "C78",
   "status": "partial",
   "theorems": [
    "C78_equal_partial",
    "C78_defined_iff",
    "C78_reflexive",
    "C78_refuted",
    "C78_undefined_refuted",
    "C78_order_refuted",
    "C78_incremental_partial",
    "C78_background_partial",
    "C78_background_refuted"
   ],
   "note": "False as stated, in four ways: trees above max_r are not compared (two 3-vertex graphs with different edges are equal); undefined when the left buffer has more used slots than the right (exactly then: C78_defined_iff); the same edges inserted in another order are unequal; background graphs that are merging compare equal whatever is being merged. Proved: a == b implies the same counts and neighbours, and the same edges for graphs built by insertions; same for the other graph types when nothing is being merged."
  },
  {
   "property": "C79",
   "status": "partial",
   "theorems": [
    "C79_clustering_partial",
    "C79_refuted",
    "C79_zero_refuted",
    "C79_value"
   ],
   "note": "False as stated: with no or one edge the divisor is zero (NaN); and the complete digraph on three vertices has coefficient 0. Proved: with two distinct edges or more, a number in [0,1]. Exact division, not float."
  },
  {
   "property": "C80",
   "status": "partial",
   "theorems": [
    "C80_idle_partial",
    "C80_each_once_partial",
    "C80_busy_partial",
    "C80_missed_refuted",
    "C80_twice_refuted"
   ],
   "note": "False as stated: during a union edges are missed, even ones contains reports; an edge inserted again while hidden (C28) is visited twice. Proved: exact while no union is in progress (each edge once if inserted once); during a union only inserted edges that contains reports, and all buffered ones. Triangle counts and pageRank are C88."
  },
  {
   "property": "C81",
   "status": "partial",
   "theorems": [
    "C81_edges_partial",
    "C81_neighbours_partial",
    "C81_edges_deletions_partial",
    "C81_edges_exact_deletions_partial",
    "C81_neighbours_deletions_partial",
    "C81_race_exact",
    "C81_dangling_exact",
    "C81_footprint",
    "C81_dangling_refuted",
    "C81_torn_refuted"
   ],
   "note": "If no merge is in progress when the loop begins: no schedule races, the loop sees exactly the inserted edges (neighbours). In general false of the code: a race is possible if and only if a merge whose tree is not yet stored is in progress (C81_race_exact); the neighbour loop can use a tree the merging thread has destroyed, exactly when the merge throws away a tree with a neighbour of x (C81_dangling_exact); the edge loop can see an edge twice. The ..._deletions theorems: the same after histories with deletions (edge loop: buffer without erased slots, no emptied tree); the race and dangling conditions are proved for histories of insertions."
  },
  {
   "property": "C82",
   "status": "partial",
   "theorems": [
    "C82_inserts_partial",
    "C82_snapshot_partial",
    "C82_frozen_partial",
    "C82_refuted"
   ],
   "note": "False as stated: deleting an edge from the graph changes the result of the Algorithm's bfs, because the copy shares its trees (C82_refuted, every tree implementation). Proved: with insertions only, on any of the graphs and Algorithms in any order, each Algorithm traverses exactly the edges it took; after any history with deletions, later insertions into the graph change nothing in the Algorithm."
  },
  {
   "property": "C83",
   "status": "partial",
   "theorems": [
    "C83_edges_partial",
    "C83_edges_inserts_partial",
    "C83_neighbours_partial",
    "C83_delete_neighbours_partial",
    "C83_twice_refuted",
    "C83_dangling_refuted",
    "C83_delete_refuted"
   ],
   "note": "Edge loops: true of every body that inserts anything and deletes only buffered edges, after any history; with insertions only the loop also ends and the graph afterwards is exactly known. (Bodies that delete edges held in a tree are not covered: the tree changes under its iterator, an external class.) Neighbour loops: true of bodies that build no tree and delete buffered edges (those of the vertex only after they were seen), so deleting every neighbour works if all are buffered. Otherwise false of the code, for every tree implementation: an insertion that empties the buffer makes the loop see a neighbour twice; an insertion that merges the tree, or del_edge of the edge just seen, destroys the tree the iterator stands in (use after free)."
  },
  {
   "property": "C84",
   "status": "partial",
   "theorems": [
    "C84_edges_partial",
    "C84_nodes",
    "C84_neighbours",
    "C84_next_total",
    "C84_assign_exact",
    "C84_assign_one_tree",
    "C84_assign_refuted",
    "C84_post_refuted"
   ],
   "note": "Node and neighbour iterators: every program does what the specification says. Edge iterators: every program without assignment between iterators does; operator= does not copy the index of the current tree, and C84_assign_exact says exactly when the assigned iterator still goes on correctly (with one tree: unless it was at the end); on a graph with two trees it does not (C84_assign_refuted). ++ at the end changes nothing. *it++ gives the value after the step, in all three classes (C84_post_refuted; the specification used for the programs says so too)."
  },
  {
   "property": "C85",
   "status": "partial",
   "theorems": [
    "C85_traversals_partial",
    "C85_counts_partial",
    "C85_hash_exact",
    "C85_heavy_exact",
    "C85_dummy_exact",
    "C85_clustering_exact",
    "C85_refuted"
   ],
   "note": "false of the code: the edge loop goes on visiting an edge deleted from the buffer, so triangles of the past are counted; proved for calm and benign histories (see C13) that leave no erased edge in the buffer; C85_hash_exact: what the hash count returns after any history"
  },
  {
   "property": "C86",
   "status": "proved",
   "theorems": [
    "C86_pagerank_exact",
    "C86_pagerank_inserts",
    "C86_iterations"
   ],
   "note": "exact real arithmetic; the iteration is specified at the head of PRExact.v; graphs without any edge excluded (the code divides by zero)"
  },
  {
   "property": "C87",
   "status": "proved",
   "theorems": [
    "C87_pagerank_limit"
   ],
   "note": "exact real arithmetic; insertions only (with deletions: C86_pagerank_exact, on the graph the neighbour lists show)"
  },
  {
   "property": "C88",
   "status": "partial",
   "theorems": [
    "C88_hash_exact",
    "C88_hash_idle_partial",
    "C88_dummy_idle_partial",
    "C88_pagerank_exact",
    "C88_heavy_exact",
    "C88_refuted"
   ],
   "note": "False as stated: one triangle is counted four times instead of three (C88_refuted), because list_neighbour gives the edge that last emptied the buffer twice; C88_hash_idle_partial: exactly by how much the count is too large while no union is in progress. C88_hash_exact and C88_pagerank_exact: what is returned at any time, in terms of the edge loop and of list_neighbour. C88_heavy_exact: the heavy-hitter count, likewise. The clustering coefficient of this class is not claimed."
  },
  {
   "property": "C89",
   "status": "partial",
   "theorems": [
    "C89_delay",
    "C89_delay_calm_partial",
    "C89_deletions_partial",
    "C89_background_partial",
    "C89_background_deletions_partial"
   ],
   "note": "Proved for the delayed-union graph after any insertions, whatever is pending. Partial: after deletions in calm histories (with the counts, when the buffer holds no erased edge), and on the background graphs between calls when no merge is going on and no edge was inserted while it was in the graph (with deletions: no erased slot in the buffer, no tree emptied). Missing: the rest, where it is false (C26, C75, C76, C85: the iterators and lists themselves are wrong there)."
  },
  {
   "property": "C90",
   "status": "partial",
   "theorems": [
    "C90_begins",
    "C90_wait_deletions_partial",
    "C90_when",
    "C90_wait_partial",
    "C90_refuted"
   ],
   "note": "C90_wait_deletions_partial: true of DKtree_background_wait (the only one of its process), all calls, while the merging thread lives (it can throw, C69); C90_wait_partial: insertions only, where it cannot; the bound is attained. C90_begins, C90_when: when a merge begins, both graphs. C90_refuted: false of DKtree_background: for every B there is a run after which B inserted edges are missed at once, because insertions made during a merge go to the buffer, which grows."
  },
  {
   "property": "C91",
   "status": "proved",
   "theorems": [
    "C91_only_way",
    "C91_spared"
   ],
   "note": "C91_only_way is an equivalence, for every state reached while the merging thread lives; C91_one_deletion: on a graph that has grown a single deletion is enough."
  },
  {
   "property": "C92",
   "status": "partial",
   "theorems": [
    "C92_deletion",
    "C92_addition",
    "C92_total_partial",
    "C92_refuted"
   ],
   "note": "The clauses about one call are proved after every history (with 0 or 2 edges the code's formula divides by log2(0) or log2(1) and allows any number; the theorem says so). The last clause is false on 2 vertices (C92_refuted, every tree implementation) and proved from 32768 vertices on."
  },
  {
   "property": "C93",
   "status": "partial",
   "theorems": [
    "C93_background_partial",
    "C93_delay_refuted"
   ],
   "note": "False of the delayed-union graph: its rebuild leaves the larger trees alone, and 7 deleted pairs stay next to 6 edges (C93_delay_refuted). Proved of both background graphs, every step of every schedule, per tree."
  },
  {
   "property": "C94",
   "status": "proved",
   "theorems": [
    "C94_follows",
    "C94_answers",
    "C94_count",
    "C94_few_deletions",
    "C94_only_way",
    "C94_returns",
    "C94_destroyed"
   ],
   "note": "Every schedule of a process with one graph. That the thread can throw and that insertions can be undefined after deletions are C68/C69 (refuted there); the statement here takes them as the conditions it names."
  },
  {
   "property": "C95",
   "status": "proved",
   "theorems": [
    "C95_returns",
    "C95_never",
    "C95_first_destruction",
    "C95_threads_end",
    "C95_after_destruction"
   ],
   "note": "On the model of the mutex, the condition variable and the two flags (Cv), in which the work on the graphs is a step. With m merging threads within 2 m^2+28 m+11 rounds in which every thread takes a step, and 3 more for every spurious wake-up. What happens when it is not served is C32_refuted_blocked."
  },
  {
   "property": "C96",
   "status": "proved",
   "theorems": [
    "C96_pagerank_float",
    "C96_pagerank_float_inserts",
    "C96_pagerank_float_sum",
    "C96_pagerank_float_sum_inserts",
    "C96_no_dangling",
    "C96_distribution",
    "C96_refuted_no_edges"
   ],
   "note": "On Flocq's IEEE 754 numbers, every operation rounded to its type (no fused multiply-add, no wider intermediates); bounds of the sum, from below only when the convergence test does not end the loop; nothing about the error of a single rank. C96_refuted_no_edges: without edges total_nodes is 0 and every rank is +infinity."
  }
 ]
}