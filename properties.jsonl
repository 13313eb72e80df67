{"id": "C01", "title": "Membership is exact after any sequence of insertions", "statement": "On a graph of n>=2 vertices, after add_edge has been called on any list of in-range edges, contains(x,y) is true exactly for the edges in that list.", "quantifier": "every n>=2, every finite list of in-range edges (any length, any duplicates), every pair (x,y)", "why_tests_cant": "the list length, and hence the number and placement of flushes and merges between the buffer and the eight compressed trees, is unbounded", "anchors": ["include/dktree/DKtree.hpp: DKtree::add_edge, contains, contains_forced", "include/dktree/Container0.hpp: Container0::insert, contains"]}
{"id": "C02", "title": "get_number_edges is the number of distinct edges inserted", "statement": "After any list of in-range add_edge calls on a graph of n>=2 vertices, get_number_edges() equals the number of distinct edges in the list (re-adding an edge changes nothing).", "quantifier": "every n>=2 and every finite list of in-range edges", "why_tests_cant": "needs every interleaving of duplicates with flushes", "anchors": ["include/dktree/DKtree.hpp: add_edge, get_number_edges"]}
{"id": "C03", "title": "Insertion is total: it never throws and never touches memory out of bounds", "statement": "On a graph of n>=2 vertices, no sequence of in-range add_edge calls throws 'collection too big' or performs an out-of-bounds or null access.", "quantifier": "every n>=2 and every finite list of in-range edges", "why_tests_cant": "the throw depends on a floating-point threshold and on the accumulated sizes of all trees; tests reach only a few sizes", "anchors": ["include/dktree/DKtree.hpp: add_edge lines 105-120", "include/dktree/utils.hpp: MAXSZ", "include/dktree/Container0.hpp: insert, resize"]}
{"id": "C04", "title": "list_neighbour returns exactly the out-neighbours, each once", "statement": "After any list of insertions, list_neighbour(x) is a duplicate-free list containing y iff edge (x,y) was inserted.", "quantifier": "every n>=2, every list of in-range edges, every in-range x", "why_tests_cant": "every distribution of the edges of x between buffer and trees", "anchors": ["include/dktree/DKtree.hpp: list_neighbour", "include/dktree/Container0.hpp: list_neighbours"]}
{"id": "C05", "title": "The neighbour iterator visits exactly what list_neighbour returns, in the same order", "statement": "Walking neighbour_begin(x) until neighbour_end() yields the sequence list_neighbour(x) and terminates (vertex ids below 2^31).", "quantifier": "every reachable graph and every in-range x", "why_tests_cant": "every combination of empty/non-empty buffer chain and trees", "anchors": ["include/dktree/DKtreeNeighbourIterator.hpp: DKtreeNeighbourIterator", "include/dktree/Container0NeighIterator.hpp: Container0NeighIterator", "include/dktree/DKtree.hpp: neighbour_begin, list_neighbour"]}
{"id": "C06", "title": "The edge iterator enumerates every edge exactly once (insert-only graphs)", "statement": "After any list of insertions, walking edge_begin() to edge_end() terminates and yields every inserted edge exactly once, provided the self-loop (9999999,9999999) is not an edge.", "quantifier": "every n>=2 and every finite list of in-range edges without the sentinel self-loop", "why_tests_cant": "every distribution of edges over buffer and trees", "anchors": ["include/dktree/DKtreeEdgeIterator.hpp: DKtreeEdgeIterator", "include/dktree/DKtree.hpp: edge_begin, edge_end"]}
{"id": "C07", "title": "The edge iterator enumerates exactly the live edges also after deletions", "statement": "Walking edge_begin() to edge_end() yields exactly the live edges, also after del_edge on buffered edges.", "quantifier": "every history of add_edge/del_edge", "why_tests_cant": "needs every history mixing deletions with a non-empty buffer", "anchors": ["include/dktree/DKtreeEdgeIterator.hpp: operator++, constructor", "include/dktree/Container0.hpp: edge_begin, size, erase"]}
{"id": "C08", "title": "The edge iterator's end value is not a legal edge", "statement": "No legal edge of a graph compares equal to edge_end().", "quantifier": "every vertex id permitted by etype", "why_tests_cant": "only a graph with more than 9999999 vertices shows it", "anchors": ["include/dktree/DKtreeEdgeIterator.hpp: MAX_SIZE_EDGE, is_end, operator=="]}
{"id": "C09", "title": "The node iterator enumerates 0..n-1", "statement": "Walking node_begin() to node_end() yields 0,1,...,n-1 in order and terminates; on the empty graph it is empty.", "quantifier": "every n < 2^31", "why_tests_cant": "all sizes", "anchors": ["include/dktree/DKtreeNodeIterator.hpp: DKtreeNodeIterator", "include/dktree/DKtree.hpp: node_begin, node_end"]}
{"id": "C10", "title": "Membership is exact after any insert/delete history that completes", "statement": "For every history of in-range add_edge/del_edge calls that never adds the self-loop (1,1) and runs to completion (no exception, no undefined behaviour), contains(x,y) is true iff the last operation on (x,y) was an add.", "quantifier": "every n>=2, every history of add/del of any length, any floating-point thresholds", "why_tests_cant": "unbounded histories; deletion rebuilds happen at data-dependent points", "anchors": ["include/dktree/DKtree.hpp: add_edge, del_edge, contains"]}
{"id": "C11", "title": "Deleting an edge never removes another edge", "statement": "del_edge(x,y) leaves every other edge of the graph present.", "quantifier": "every reachable graph, every edge", "why_tests_cant": "the loss needs a rebuild with a non-empty buffer and the self-loop (1,1) present", "anchors": ["include/dktree/DKtree.hpp: del_edge lines 206-244"]}
{"id": "C12", "title": "Deleting an edge is memory safe", "statement": "del_edge never dereferences a null tree.", "quantifier": "every reachable graph, every edge", "why_tests_cant": "needs a rebuild with an empty buffer while (1,1) is present", "anchors": ["include/dktree/DKtree.hpp: del_edge lines 217-243"]}
{"id": "C13", "title": "get_number_edges is the number of live edges after any insert/delete history", "statement": "After any add/del history get_number_edges() equals the number of edges for which contains is true.", "quantifier": "every history of add/del", "why_tests_cant": "depends on whether a rebuild happened", "anchors": ["include/dktree/DKtree.hpp: del_edge, get_number_edges"]}
{"id": "C14", "title": "Re-inserting after deleting a buffered edge is memory safe", "statement": "add_edge after del_edge never accesses the buffer out of bounds.", "quantifier": "every history of add/del", "why_tests_cant": "depends on the number of dead buffer slots relative to the floating-point capacity", "anchors": ["include/dktree/DKtree.hpp: add_edge", "include/dktree/Container0.hpp: insert, erase, resize, size"]}
{"id": "C15", "title": "add_edge throws only when it changes nothing", "statement": "If add_edge throws 'collection too big' the graph is unchanged (strong exception guarantee); on a graph of 0 vertices it always throws.", "quantifier": "every state and every edge", "why_tests_cant": "needs every state in which the throw can happen", "anchors": ["include/dktree/DKtree.hpp: add_edge lines 111-121"]}
{"id": "C16", "title": "Insertion is possible whatever was deleted before", "statement": "add_edge never throws 'collection too big' on a graph whose live edge count fits.", "quantifier": "every add/del history", "why_tests_cant": "needs marked-but-counted edges to accumulate", "anchors": ["include/dktree/DKtree.hpp: add_edge, del_edge"]}
{"id": "C17", "title": "list_neighbour still sees every live edge after deletions", "statement": "After any add/del history list_neighbour(x) returns every live out-neighbour of x.", "quantifier": "every add/del history", "why_tests_cant": "needs a rebuild that places the merged tree above the highest level used so far", "anchors": ["include/dktree/DKtree.hpp: del_edge line 242, list_neighbour, get_max_r"]}
{"id": "C18", "title": "The buffer behaves as a set with adjacency lists", "statement": "After any history of insert/erase on the uncompressed container that stays within its capacity: contains is exact, erase returns whether the edge was present, size() is the number of live edges, and list_neighbours(x) returns exactly the live out-neighbours of x, most recent first, and terminates.", "quantifier": "every capacity, every history of insert/erase within capacity, every x", "why_tests_cant": "pointer surgery on index-linked lists must hold for every interleaving", "anchors": ["include/dktree/Container0.hpp: insert, erase, contains, list_neighbours, size", "include/dktree/EdgeHashTable.hpp: EdgeHashTable, NodeEdge"]}
{"id": "C19", "title": "Buffer round trip through serialization", "statement": "Saving and loading a buffer from which nothing was deleted since the last flush yields a buffer with the same contents, the same neighbour lists and equal under ==.", "quantifier": "every buffer state without deletions", "why_tests_cant": "every insertion order and every adjacency structure", "anchors": ["include/dktree/Container0.hpp: save, load, operator=="]}
{"id": "C20", "title": "Saving a buffer after a deletion writes only real edges", "statement": "Serialization writes only edges of the graph.", "quantifier": "every add/del history", "why_tests_cant": "the damage is an indeterminate value", "anchors": ["include/dktree/Container0.hpp: save lines 234-244"]}
{"id": "C21", "title": "Serialize then load restores the graph", "statement": "For a graph built by insertions, serialize into an empty directory followed by load into a fresh graph yields a graph that answers contains, list_neighbour and get_number_edges identically and is equal under ==.", "quantifier": "every insert-only graph", "why_tests_cant": "every population of the eight trees", "anchors": ["include/dktree/DKtree.hpp: serialize, load, operator=="]}
{"id": "C22", "title": "Serialize then load restores the graph also in a reused directory", "statement": "serialize overwrites whatever an earlier serialize left in the same directory: load returns the graph serialized last.", "quantifier": "every pair of graphs serialized to the same directory", "why_tests_cant": "needs two graphs with different tree populations", "anchors": ["include/dktree/DKtree.hpp: serialize lines 346-365, load"]}
{"id": "C23", "title": "A crash during serialize does not mix two graphs", "statement": "If the process stops at any point during serialize over an earlier snapshot, load returns the old or the new graph.", "quantifier": "every crash point in the sequence of file writes", "why_tests_cant": "crash points cannot be enumerated by unit tests", "anchors": ["include/dktree/DKtree.hpp: serialize"]}
{"id": "C24", "title": "The delayed-union graph answers exactly between unions", "statement": "For DKtree_delay, after any list of insertions that completes, contains, list_neighbour and get_number_edges are exact at every moment, although unions are still pending.", "quantifier": "every n>=2, every list of in-range edges, every pending-union state", "why_tests_cant": "the pending-union state machine has unboundedly many reachable states", "anchors": ["include/dktree/DKtree_delay.hpp: union_delay, add_edge, contains, list_neighbour"]}
{"id": "C25", "title": "The delayed union always finishes in time", "statement": "The branch marked 'cannot happen' in DKtree_delay::add_edge is never reached.", "quantifier": "every n>=2 and every list of in-range edges", "why_tests_cant": "needs a buffer much smaller than the number of trees", "anchors": ["include/dktree/DKtree_delay.hpp: add_edge lines 139-181"]}
{"id": "C26", "title": "Deletion in the delayed-union graph is memory safe and complete", "statement": "del_edge on DKtree_delay never leaves the graph in a state where a later add_edge dereferences a null tree, writes past the array of trees, or hides live edges from list_neighbour.", "quantifier": "every add/del history", "why_tests_cant": "needs deletion while a union is pending", "anchors": ["include/dktree/DKtree_delay.hpp: del_edge, union_delay"]}
{"id": "C27", "title": "The incremental bitmap union computes the union", "statement": "Running unionOperation until has_finish() (in whatever slices the per-call budget imposes) leaves at the target level exactly the tree of the union of all edges of the new tree and of the merged levels, and an edge count equal to its number of edges; it never reads or writes a bitmap out of bounds and always terminates.", "quantifier": "every arity k>=2, every height, every set of trees, every slice budget >=1", "why_tests_cant": "the BFS over two bitmaps must be right for all tree shapes and all interruption points", "anchors": ["include/dktree/union_support.hpp: k2_tree_union_support::unionOperation, initialize, result"]}
{"id": "C28", "title": "A pending incremental union hides no edge", "statement": "In DKtree_delay_munro contains(x,y) is true for every inserted edge at every moment.", "quantifier": "every list of insertions, every moment", "why_tests_cant": "only visible while a union is in progress", "anchors": ["include/dktree/DKtree_delay_.hpp: add_edge, contains"]}
{"id": "C29", "title": "Incremental-union graph: neighbours are exact, deletion deletes", "statement": "DKtree_delay_munro::list_neighbour returns each out-neighbour exactly once and del_edge removes the edge.", "quantifier": "every list of operations", "why_tests_cant": "needs particular vertices and moments", "anchors": ["include/dktree/DKtree_delay_.hpp: list_neighbour, del_edge, tmp_edge"]}
{"id": "C30", "title": "Background merging loses nothing under any schedule", "statement": "For DKtree_background and every interleaving of insertions with the steps of the background thread: no edge is invented, no edge is lost, and whenever the background thread is idle contains is exact.", "quantifier": "every list of insertions and every schedule of the background thread", "why_tests_cant": "schedules cannot be enumerated by unit tests", "anchors": ["include/dktree/DKtree_background.hpp: union_collection, add_edge, contains"]}
{"id": "C31", "title": "Background merging is invisible to readers", "statement": "For DKtree_background contains(x,y) is true for every inserted edge under every schedule, and get_number_edges counts distinct edges.", "quantifier": "every list of insertions and every schedule", "why_tests_cant": "depends on the schedule", "anchors": ["include/dktree/DKtree_background.hpp: contains, add_edge, get_number_edges"]}
{"id": "C32", "title": "Two background-wait graphs are independent", "statement": "Operations on one DKtree_background_wait graph, including its destruction, never block or corrupt another.", "quantifier": "every interleaving of two graphs and their threads", "why_tests_cant": "depends on the schedule; the flags are process-wide globals", "anchors": ["include/dktree/DKtree_background_wait.hpp: needs_work_w, run_w, union_collection_wait, add_edge, destructor"]}
{"id": "C33", "title": "BFS visits exactly the reachable vertices, once, in order of distance", "statement": "bfs(root) terminates and returns a list without repetitions containing exactly the vertices reachable from root, root first, in non-decreasing order of distance from root.", "quantifier": "every finite graph and every root", "why_tests_cant": "every graph shape", "anchors": ["include/algorithm/Algorithm.hpp: bfs"]}
{"id": "C34", "title": "DFS visits exactly the reachable vertices once", "statement": "dfs(root) terminates and returns a list without repetitions containing exactly the vertices reachable from root, root first.", "quantifier": "every finite graph and every root", "why_tests_cant": "every graph shape", "anchors": ["include/algorithm/Algorithm.hpp: dfs"]}
{"id": "C35", "title": "dfs returns a depth-first order", "statement": "The list returned by dfs is a depth-first traversal order (each visited vertex after the root is an out-neighbour of the most recent earlier vertex that still has unvisited out-neighbours).", "quantifier": "every finite graph and every root", "why_tests_cant": "needs a graph where marking at push time differs from marking at visit time", "anchors": ["include/algorithm/Algorithm.hpp: dfs"]}
{"id": "C36", "title": "Hash-based triangle count is exact", "statement": "count_triangles_dummy_hash returns the number of triples of pairwise distinct vertices (a,b,c) with edges a->b, b->c, c->a.", "quantifier": "every finite graph", "why_tests_cant": "every graph shape including self-loops", "anchors": ["include/algorithm/Algorithm.hpp: count_triangles_dummy_hash"]}
{"id": "C37", "title": "Iterator-based triangle count agrees with the hash-based one", "statement": "count_triangles_dummy returns the same number as count_triangles_dummy_hash.", "quantifier": "every finite graph", "why_tests_cant": "differs only on graphs with self-loops", "anchors": ["include/algorithm/Algorithm.hpp: count_triangles_dummy"]}
{"id": "C38", "title": "Heavy-hitter triangle count counts triangles", "statement": "count_triangles returns a number that is zero only if the graph has no directed triangle.", "quantifier": "every finite graph", "why_tests_cant": "every degree distribution relative to sqrt(|E|)", "anchors": ["include/algorithm/Algorithm.hpp: count_triangles, is_heavy_hitter, minor_degree"]}
{"id": "C39", "title": "PageRank conserves rank mass", "statement": "In exact arithmetic, after t full iterations of pageRank the sum of all ranks is 1 + alpha^t*(S0-1), where S0 is the initial sum; in particular it stays 1 when every vertex has an out-edge.", "quantifier": "every finite graph, every alpha, every number of iterations", "why_tests_cant": "every graph shape and iteration count", "anchors": ["include/algorithm/Algorithm.hpp: pageRank"]}
{"id": "C40", "title": "PageRank returns a probability distribution", "statement": "The ranks returned by pageRank sum to 1.", "quantifier": "every finite graph, every convergence threshold", "why_tests_cant": "depends on when the in-loop convergence test fires", "anchors": ["include/algorithm/Algorithm.hpp: pageRank lines 248-259"]}
{"id": "C41", "title": "The edge key of the hash table is collision free", "statement": "Two different edges of 32-bit vertices never get the same 64-bit key, and find returns -1 exactly for absent edges and otherwise the index stored last.", "quantifier": "every pair of edges of 32-bit ids, every history of insert/erase on the table", "why_tests_cant": "2^64 keys", "anchors": ["include/dktree/EdgeHashTable.hpp: Hash::edge_to_uint64, EdgeHashTable::insert, find, erase, contains"]}
{"id": "C42", "title": "A copied graph is not affected by insertions into the original", "statement": "After copying a graph (as the Algorithm constructor does), add_edge on the original changes no answer of the copy.", "quantifier": "every graph, every list of insertions", "why_tests_cant": "aliasing of shared trees depends on which trees are merged", "anchors": ["include/algorithm/Algorithm.hpp: Algorithm(Graph&), set_graph", "include/dktree/DKtree.hpp: k_collection, add_edge"]}
{"id": "C43", "title": "A copied graph is not affected by deletions in the original", "statement": "After copying a graph, del_edge on the original changes no answer of the copy.", "quantifier": "every graph, every deletion", "why_tests_cant": "needs the deleted edge to live in a shared tree", "anchors": ["include/algorithm/Algorithm.hpp: Algorithm(Graph&)", "include/dktree/DKtree.hpp: del_edge, k_collection"]}
{"id": "C44", "title": "When exactly deletion fails", "statement": "del_edge never throws; it is undefined exactly when the edge is not buffered, the buffer is empty, the rebuild threshold is exceeded, and the self-loop (1,1) is another live edge or the buffer has no slot left.", "quantifier": "every n>=2, every reachable graph, every in-range edge", "why_tests_cant": "an equivalence over all reachable states", "anchors": ["include/dktree/DKtree.hpp: del_edge lines 183-246"]}
{"id": "C45", "title": "contains is never spurious and exact except for (1,1)", "statement": "After any add/del history that completes, contains(x,y) true implies the last operation on (x,y) was an add, and the converse holds for every edge other than (1,1); no assumption on the thresholds.", "quantifier": "every n>=2, every completing history, every threshold values, every pair", "why_tests_cant": "unbounded histories and arbitrary rounding", "anchors": ["include/dktree/DKtree.hpp: add_edge, del_edge, contains"]}
{"id": "C46", "title": "list_neighbour is always safe, duplicate free and sound", "statement": "After any add/del history that completes, list_neighbour(x) is defined, has no duplicates, and lists only present edges.", "quantifier": "every n>=2, every completing history, every x", "why_tests_cant": "every distribution of edges over buffer and trees after rebuilds", "anchors": ["include/dktree/DKtree.hpp: list_neighbour, del_edge"]}
{"id": "C47", "title": "Bounds on get_number_edges after deletions", "statement": "After any add/del history that completes, the number of edges reported is at least the number of edges for which contains is true and exceeds it by at most the number of del_edge calls (for trees whose adj_forced is a query).", "quantifier": "every n>=2, every completing history", "why_tests_cant": "unbounded histories", "anchors": ["include/dktree/DKtree.hpp: add_edge, del_edge, get_number_edges"]}
{"id": "C48", "title": "When exactly insertion is undefined", "statement": "add_edge is undefined exactly when the edge is absent, the buffered live edges are fewer than MAXSZ(max(n,count),0), and the slots consumed since the last flush (deleted ones included) fill the buffer even after it is grown.", "quantifier": "every n>=2, every reachable graph, every in-range edge", "why_tests_cant": "an equivalence over all reachable states", "anchors": ["include/dktree/DKtree.hpp: add_edge", "include/dktree/Container0.hpp: insert, erase, resize"]}
{"id": "C49", "title": "The compressed tree implementation is unobservable", "statement": "The same history on two graphs that use different correct implementations of the compressed tree ends the same way (normal, exception, undefined) and leaves the same answers of contains, list_neighbour (as a set) and get_number_edges.", "quantifier": "every pair of tree implementations meeting the contract, every history", "why_tests_cant": "quantifies over implementations", "anchors": ["include/dktree/DKtree.hpp: k_collection"]}
{"id": "C50", "title": "edge_begin() can be called again", "statement": "A second walk from edge_begin() to edge_end() yields the same edges as the first, also when the first walk advanced the reference edge_begin() returned.", "quantifier": "every reachable graph, every previous use of the member iterator", "why_tests_cant": "state left in a member by earlier walks", "anchors": ["include/dktree/DKtree.hpp: edge_begin", "include/dktree/DKtreeEdgeIterator.hpp: operator=, operator++"]}
{"id": "C51", "title": "The edge walk is always defined and bounded", "statement": "After any add/del history that completes, walking edge_begin() to edge_end() is defined and ends, yields only edges that were added at some time, and yields exactly as many as there are edges (never more; fewer only if (9999999,9999999) was added).", "quantifier": "every n>=2, every completing history", "why_tests_cant": "unbounded histories", "anchors": ["include/dktree/DKtree.hpp: edge_begin", "include/dktree/DKtreeEdgeIterator.hpp: DKtreeEdgeIterator, operator++"]}
{"id": "C52", "title": "Serialize then load restores the graph also after deletions", "statement": "For a graph reached by any add/del history on which serialize is defined, loading the snapshot yields a graph that contains exactly the same edges.", "quantifier": "every add/del history", "why_tests_cant": "needs a rebuild into a level above the highest level used before", "anchors": ["include/dktree/DKtree.hpp: serialize lines 352-361, load, del_edge"]}
{"id": "C53", "title": "load replaces the target graph", "statement": "load into a graph that already holds edges leaves exactly the edges of the snapshot.", "quantifier": "every pair of insert-only graphs", "why_tests_cant": "needs two graphs with different tree populations", "anchors": ["include/dktree/DKtree.hpp: load lines 382-396"]}
{"id": "C54", "title": "A delayed-union graph survives serialize and load", "statement": "A DKtree_delay built by insertions, serialized (whatever union is pending) and loaded into a fresh DKtree_delay, answers every query alike and accepts further insertions like the original.", "quantifier": "every completing list of insertions, every further list", "why_tests_cant": "the union in progress is not part of the snapshot; every phase of it must be considered", "anchors": ["include/dktree/DKtree_delay.hpp: serialize, load, add_edge, union_delay"]}
{"id": "C55", "title": "DKtree_delay: membership and count are exact after any add/del history", "statement": "After any add/del history that completes on DKtree_delay, contains(x,y) is true iff the last operation on (x,y) was an add, get_number_edges() is the number of such edges, and list_neighbour(x) is defined, duplicate free and lists only present edges; no assumption on the thresholds.", "quantifier": "every n>=2, every completing history, every threshold values", "why_tests_cant": "unbounded histories; every phase of the pending union", "anchors": ["include/dktree/DKtree_delay.hpp: add_edge, del_edge, contains, list_neighbour, get_number_edges"]}
{"id": "C56", "title": "The incremental union keeps pace with insertions", "statement": "A union started with m new edges has finished after m calls of unionOperation (one per insertion), so that the assertion in add_edge that the previous union has finished holds when the buffer is full again.", "quantifier": "every new tree, every collection, every target level", "why_tests_cant": "the work depends on the shapes of all trees merged, which grow with the history", "anchors": ["include/dktree/union_support.hpp: constructor, unionOperation", "include/dktree/DKtree_delay_.hpp: add_edge lines 96-108"]}
{"id": "C57", "title": "PageRank is always defined and never negative", "statement": "For every graph with at least one edge, every convergence threshold, every 0<=alpha<=1 and every number of iterations, pageRank returns one rank per vertex, no rank is negative, and the sum is at most the mass of the completed iterations.", "quantifier": "every history of the graph, every parameters of pageRank", "why_tests_cant": "the early exit inside the vertex loop makes the result depend on all ranks; tests sample a few graphs", "anchors": ["include/algorithm/Algorithm.hpp::pageRank"]}
{"id": "C58", "title": "Incremental-union graph: what one insertion does", "statement": "For DKtree_delay_munro, add_edge(x,y) never throws; when contains reports the edge (after one step of the union in progress) the graph is unchanged but for that step; otherwise get_number_edges grows by one and contains(x,y) holds - except when the buffer is full and the union is unfinished, where the assertion fails.", "quantifier": "every n>=2, every list of operations, every in-range edge", "why_tests_cant": "the outcome depends on the whole history through the union in progress", "anchors": ["include/dktree/DKtree_delay_.hpp: add_edge, contains, get_number_edges"]}
{"id": "C59", "title": "Incremental-union graph: the union is always finished in time", "statement": "For DKtree_delay_munro the assertion union_support.has_finish() in add_edge never fails.", "quantifier": "every n, every list of insertions", "why_tests_cant": "the smallest known failing run needs 2453 carefully chosen insertions", "anchors": ["include/dktree/DKtree_delay_.hpp: add_edge", "include/dktree/union_support.hpp: unionOperation, has_finish"]}
{"id": "C60", "title": "Background graph: no data race", "statement": "On DKtree_background, whatever calls the (single) caller makes, no unsynchronised conflicting accesses of the calling thread and the merging thread to the same field can happen at the same time.", "quantifier": "every n, every list of calls, every schedule of the two threads", "why_tests_cant": "a race may exist on schedules a test never takes, and usually leaves no trace", "anchors": ["include/dktree/DKtree_background.hpp: union_collection, add_edge, contains, list_neighbour, del_edge"]}
{"id": "C61", "title": "Background graph: calls return and merges end", "statement": "On DKtree_background a call of add_edge, contains or list_neighbour returns after a bounded number of steps of its own thread whatever the merging thread does, and a merge ends after a bounded number of steps of the merging thread whatever the caller does.", "quantifier": "every n>=2, every list of such calls, every schedule", "why_tests_cant": "liveness over all schedules", "anchors": ["include/dktree/DKtree_background.hpp: union_collection, add_edge, contains, list_neighbour"]}
{"id": "C62", "title": "Background graph: a deleted edge is gone", "statement": "On DKtree_background, when del_edge(x,y) has returned and before (x,y) is inserted again, contains(x,y) is false.", "quantifier": "every n>=2, every list of calls, every schedule", "why_tests_cant": "the failing schedules insert an edge again while it is being merged", "anchors": ["include/dktree/DKtree_background.hpp: del_edge, add_edge, contains"]}
{"id": "C63", "title": "Background graph: destruction is safe", "statement": "After the destructor of a DKtree_background has finished, its merging thread no longer accesses the object.", "quantifier": "every state in which the destructor is entered, every schedule", "why_tests_cant": "the window is a few instructions wide", "anchors": ["include/dktree/DKtree_background.hpp: ~DKtree_background, union_collection, background_union.detach()"]}
{"id": "C64", "title": "The only background-wait graph of a process: nothing invented, nothing lost", "statement": "In a process that constructs a single DKtree_background_wait graph: for every interleaving of the calling thread (insertions, contains, list_neighbour, and the destructor) with the merging thread nothing undefined happens, no edge is invented, and an answer given while no merge is going on is complete.", "quantifier": "every n>=2, every list of calls, every schedule", "why_tests_cant": "schedules cannot be enumerated by unit tests", "anchors": ["include/dktree/DKtree_background_wait.hpp: union_collection_wait, add_edge, contains, list_neighbour, ~DKtree_background_wait"]}
{"id": "C65", "title": "The only background-wait graph of a process: calls and destructors return", "statement": "In such a process every add_edge, contains, list_neighbour and the destructor return once the merging thread and then the calling thread have taken a bounded number of steps; a flush never waits for ever.", "quantifier": "every n>=2, every list of calls, every schedule", "why_tests_cant": "liveness over all schedules", "anchors": ["include/dktree/DKtree_background_wait.hpp: add_edge lines 180-185, union_collection_wait, ~DKtree_background_wait"]}
{"id": "C66", "title": "The only background-wait graph of a process: destruction is safe", "statement": "After the destructor has finished, the merging thread never accesses the object again, and ends.", "quantifier": "every state in which the destructor is entered, every schedule", "why_tests_cant": "the window is a few instructions wide", "anchors": ["include/dktree/DKtree_background_wait.hpp: ~DKtree_background_wait, union_collection_wait"]}
{"id": "C67", "title": "Background-wait graphs: no wake-up is lost", "statement": "With any number of background-wait graphs, a thread sleeps in cv_w.wait only while its condition is false (or the notification is about to be sent by the holder of the mutex), the mutex excludes, and its holder is never blocked.", "quantifier": "every number of graphs, every schedule, spurious wake-ups included", "why_tests_cant": "a lost wake-up needs a precise interleaving", "anchors": ["include/dktree/DKtree_background_wait.hpp: cv_w, m_mutex, union_collection_wait, add_edge, del_edge, ~DKtree_background_wait"]}
{"id": "C68", "title": "Background graph: no undefined behaviour with deletions", "statement": "On DKtree_background, any in-range calls of add_edge, del_edge, contains and list_neighbour have defined behaviour (no access outside a container).", "quantifier": "every n>=2, every list of calls, every schedule", "why_tests_cant": "the failing runs leave the allocated buffer by one element; most memory checkers do not see it", "anchors": ["include/dktree/DKtree_background.hpp: add_edge, del_edge", "include/dktree/Container0.hpp: insert"]}
{"id": "C69", "title": "Background graph: the merging thread never ends the process", "statement": "On DKtree_background the merging thread never throws (an exception in it calls std::terminate).", "quantifier": "every n>=2, every list of calls, every schedule", "why_tests_cant": "depends on the sizes of all levels, hence on the whole history", "anchors": ["include/dktree/DKtree_background.hpp: union_collection"]}
{"id": "C70", "title": "Background graphs: every call returns, del_edge included", "statement": "On DKtree_background and a single DKtree_background_wait, every call, including a del_edge that rebuilds the whole graph, returns after a number of steps bounded by the number of edges, if both threads keep running.", "quantifier": "every n>=2, every list of calls, every fair schedule", "why_tests_cant": "liveness over all schedules", "anchors": ["include/dktree/DKtree_background.hpp: del_edge lines 200-260, add_edge, union_collection", "include/dktree/DKtree_background_wait.hpp: del_edge"]}
{"id": "C71", "title": "Background graphs: nothing is lost", "statement": "On DKtree_background and a single DKtree_background_wait, after any sequence of calls and under every schedule (edges may be inserted again while present, deleted, re-inserted), contains and list_neighbour report every edge that was inserted and not deleted since, when no merge is going on while they run.", "quantifier": "every n>=2, every list of calls with deletions, every schedule", "why_tests_cant": "all interleavings; duplicates, deletions and rebuilds interact with pending merges", "anchors": ["include/dktree/DKtree_background.hpp: add_edge, del_edge, contains, list_neighbour, union_collection", "include/dktree/DKtree_background_wait.hpp: same"]}
{"id": "C72", "title": "Background graphs: nothing is invented", "statement": "On DKtree_background and a single DKtree_background_wait, after any sequence of calls and under every schedule, also in the middle of a merge, contains and list_neighbour report only edges that were inserted at some time before.", "quantifier": "every n>=2, every list of calls with deletions, every schedule", "why_tests_cant": "all interleavings, including queries that read the copy and the buffer while both change", "anchors": ["include/dktree/DKtree_background.hpp: contains, list_neighbour, union_collection", "include/dktree/DKtree_background_wait.hpp: same"]}
{"id": "C73", "title": "Background graphs survive serialize and load", "statement": "If a DKtree_background or DKtree_background_wait is serialized between two calls, whatever its merging thread is doing, into an empty directory, and loaded into a newly built graph, the loaded graph equals the original and answers as the original would, then and after any further calls.", "quantifier": "every n>=2, every list of calls, every schedule, every point at which serialize is called", "why_tests_cant": "serialize during a merge depends on the schedule", "anchors": ["include/dktree/DKtree_background.hpp: serialize, load, operator==", "include/dktree/DKtree_background_wait.hpp: serialize, load, operator=="]}
{"id": "C74", "title": "A background graph can be loaded into a default-constructed object", "statement": "A DKtree_background serialized while idle and loaded into a default-constructed object (as the tests do with DKtree) behaves as the original.", "quantifier": "every n>=2, every list of calls before and after, every schedule", "why_tests_cant": "depends on uninitialised memory and on later merges", "anchors": ["include/dktree/DKtree_background.hpp: DKtree_background(), load"]}
{"id": "C75", "title": "Iterators and algorithms on the delayed-union graph", "statement": "On DKtree_delay, after any history of add_edge and del_edge, also while unions are pending, the edge loop visits exactly the edges of the graph, each once; the neighbour loop exactly the neighbours; breadth-first and depth-first search and the hash triangle count are right.", "quantifier": "every n>=2, every history of operations", "why_tests_cant": "the iterators see a state that depends on how far the delayed unions have come", "anchors": ["include/dktree/DKtree_delay.hpp: edge_begin, node_begin, neighbour_begin, first_container, k_collections", "include/dktree/DKtreeEdgeIterator.hpp", "include/algorithm/Algorithm.hpp"]}
{"id": "C76", "title": "Iterators and algorithms on the background graphs", "statement": "On DKtree_background and DKtree_background_wait, after any calls under any schedule, the edge loop visits exactly the edges of the graph, each once; the neighbour loop exactly the neighbours; breadth-first and depth-first search and the hash triangle count written as in Algorithm.hpp against these iterators are right (the class Algorithm itself copies its graph, and a graph with a thread cannot be copied).", "quantifier": "every n>=2, every list of calls, every schedule", "why_tests_cant": "what the iterators see depends on the state of the merge, hence on the schedule", "anchors": ["include/dktree/DKtree_background.hpp: edge_begin, node_begin, neighbour_begin", "include/dktree/DKtree_background_wait.hpp: same", "include/dktree/DKtreeEdgeIterator.hpp"]}
{"id": "C77", "title": "Incremental-union graphs survive serialize and load", "statement": "An incremental-union graph serialized between any two calls, also in the middle of a union, into an empty directory and loaded into a newly built graph, equals the original and answers as the original would, then and after any further calls.", "quantifier": "every n>=2, every list of insertions before and after, every point at which serialize is called", "why_tests_cant": "the effect depends on how far the union has come, and on everything called afterwards", "anchors": ["include/dktree/DKtree_delay_.hpp: serialize, load, operator=="]}
{"id": "C78", "title": "operator== decides equality", "statement": "For any two graphs of the same type, whatever was done to them, a == b is defined, and true exactly if they have the same vertices and hold the same edges.", "quantifier": "every two histories of operations; background graphs: every two schedules", "why_tests_cant": "quantifies over pairs of histories; what is compared depends on how the edges are spread over buffer and trees", "anchors": ["include/dktree/DKtree.hpp: operator==", "include/dktree/Container0.hpp: operator==", "include/dktree/DKtree_delay_.hpp: operator==", "include/dktree/DKtree_background.hpp: operator=="]}
{"id": "C79", "title": "clustering_coefficient is a number between 0 and 1", "statement": "For every graph, clustering_coefficient() returns a number between 0 and 1; it is the number of triangles found by the heavy-hitter count divided by m(m-1).", "quantifier": "every n>=2, every set of inserted edges, every number of hash buckets", "why_tests_cant": "the bound is a counting argument over all graphs", "anchors": ["include/algorithm/Algorithm.hpp: clustering_coefficient, count_triangles"]}
{"id": "C80", "title": "Iterators and searches on the incremental-union graph", "statement": "On DKtree_delay_munro, after any insertions, also in the middle of a union, the edge loop visits exactly the inserted edges, each once; the neighbour loop exactly the neighbours; breadth-first and depth-first search are right.", "quantifier": "every n>=2, every history of insertions, every tree height that fits", "why_tests_cant": "what the iterators see depends on how far the incremental union has come", "anchors": ["include/dktree/DKtree_delay_.hpp: edge_begin, node_begin, neighbour_begin, first_container, k_collections", "include/dktree/DKtreeEdgeIterator.hpp", "include/algorithm/Algorithm.hpp"]}
{"id": "C81", "title": "Background graph: iterating while a merge runs", "statement": "On DKtree_background and DKtree_background_wait, edge_begin() and a loop from neighbour_begin(x) to neighbour_end() may run while the merging thread works: no data race, no object used after its end, and the loop visits exactly the inserted edges (neighbours), each once.", "quantifier": "every n>=2, every list of calls and schedule before, every schedule of the two threads during the loop", "why_tests_cant": "quantifies over the interleavings of the loop with the merge", "anchors": ["include/dktree/DKtree_background.hpp: edge_begin, neighbour_begin, k_collections, max_r", "include/dktree/DKtree_background_wait.hpp: same", "include/dktree/DKtreeEdgeIterator.hpp", "include/dktree/DKtreeNeighbourIterator.hpp"]}
{"id": "C82", "title": "An Algorithm object works on the graph as it was when it was built", "statement": "Algorithm(g) takes a copy: bfs, dfs and count_triangles_dummy_hash called on the Algorithm give the results for the edges g had when the Algorithm was built (or set_graph last called), whatever is done to g afterwards; and using the Algorithm changes nothing in g.", "quantifier": "every n, every history before and after, any number of Algorithm objects", "why_tests_cant": "what the copy shares with the graph shows only after the right operation on the right edge", "anchors": ["include/algorithm/Algorithm.hpp: Algorithm(Graph&), set_graph, bfs, dfs, count_triangles_dummy_hash", "include/dktree/DKtree.hpp: copy constructor (implicit), k_collection"]}
{"id": "C83", "title": "A graph may be modified inside a loop over its edges or neighbours", "statement": "In `for (it = g.edge_begin(); it != g.edge_end(); ++it) body` and `for (it = g.neighbour_begin(x); it != g.neighbour_end(); ++it) body`, where body calls add_edge and del_edge on g: the loop visits exactly the edges (the neighbours of x) there were when it began, each once, ends, and uses nothing that has been destroyed.", "quantifier": "every n, x, every history, every body (its calls may depend on everything the loop has seen)", "why_tests_cant": "whether the iterator survives a call depends on where the buffer and the trees stand at that moment", "anchors": ["include/dktree/DKtree.hpp: edge_begin, neighbour_begin, add_edge, del_edge", "include/dktree/DKtreeEdgeIterator.hpp: operator++", "include/dktree/DKtreeNeighbourIterator.hpp: operator++", "include/dktree/Container0NeighIterator.hpp: operator++"]}
{"id": "C84", "title": "Iterators are values", "statement": "Iterators over an unmodified graph can be copied, assigned, advanced and read in any order, any number of them at once: each goes on from its own place, unaffected by the others; an assigned iterator goes on as the one it was assigned from; *it++ is the value before the step; ++ at the end is harmless.", "quantifier": "every n, every history, every program over iterator variables", "why_tests_cant": "quantifies over programs; whether an assignment loses the place depends on which part of the graph each iterator has reached", "anchors": ["include/dktree/DKtreeEdgeIterator.hpp: operator=, operator++, operator++(int)", "include/dktree/DKtreeNodeIterator.hpp: operator=, operator++", "include/dktree/DKtreeNeighbourIterator.hpp: operator++, operator++(int)", "include/dktree/DKtree.hpp: edge_begin, node_begin, neighbour_begin"]}
{"id": "C85", "title": "Iterators and algorithms after deletions", "statement": "After any history of add_edge and del_edge the edge loop and the neighbour loops visit exactly the edges (neighbours) the history leaves, each once, and bfs, dfs, the triangle counts and the clustering coefficient are those of the graph the history leaves.", "quantifier": "every n>=2, every history of insertions and deletions", "why_tests_cant": "what the iterators see depends on where the buffer and the trees stand, hence on the whole history", "anchors": ["include/algorithm/Algorithm.hpp: bfs, dfs, count_triangles_dummy_hash, count_triangles_dummy, count_triangles, clustering_coefficient", "include/dktree/DKtreeEdgeIterator.hpp", "include/dktree/DKtree.hpp: edge_begin, list_neighbour, del_edge"]}
{"id": "C86", "title": "pageRank computes the PageRank iteration", "statement": "pageRank(convergence, max_iterations, alpha) returns, vertex by vertex, the ranks of the PageRank iteration on the graph: rank 1/m everywhere at first (m vertices have an out-edge), then in each iteration (1-alpha)/n, plus alpha/n times the rank of the vertices without out-edges, plus alpha times the sum over in-neighbours u of rank(u)/outdegree(u); stopped by the convergence test (made after each vertex) the first time the distance to the previous ranks is below n*convergence, or after max_iterations iterations.", "quantifier": "every n>=2, every history that leaves an edge, every convergence, alpha and max_iterations; every list of insertions", "why_tests_cant": "the rank of a vertex depends on all the edges and all the iterations; a test fixes one graph", "anchors": ["include/algorithm/Algorithm.hpp: pageRank"]}
{"id": "C87", "title": "pageRank approximates the PageRank of the graph", "statement": "For 0<=alpha<1 the PageRank equations of the graph have exactly one solution, which is a probability distribution; with the convergence test off the result of pageRank differs from it by at most alpha^t (n/m + 1) in total after t iterations; if the test ends an iteration after its last vertex, by at most alpha/(1-alpha) n convergence.", "quantifier": "every n>=2, every non-empty list of insertions, every alpha in [0,1), every number of iterations", "why_tests_cant": "a limit: no finite number of runs shows it", "anchors": ["include/algorithm/Algorithm.hpp: pageRank"]}
{"id": "C88", "title": "Triangle counts and pageRank on the incremental-union graph", "statement": "On the incremental-union graph count_triangles_dummy_hash returns the number of directed triangles of the inserted edges, count_triangles_dummy the number of its triples, and pageRank the PageRank iteration on the inserted edges, also while a union is in progress.", "quantifier": "every n>=2, every history of insertions, every number of pending union steps, every number of buckets; all parameters of pageRank", "why_tests_cant": "list_neighbour, contains and the iterators of this class look at different parts of a union in progress", "anchors": ["include/algorithm/Algorithm.hpp: count_triangles_dummy_hash, count_triangles_dummy, pageRank", "include/dktree/DKtree_delay_.hpp: list_neighbour, contains, edge_begin"]}
{"id": "C89", "title": "The algorithms on every kind of graph", "statement": "count_triangles_dummy_hash, count_triangles_dummy, count_triangles, clustering_coefficient and pageRank return on the delayed-union graph and on the background graphs, and on any of them after deletions, what they return on a plain graph holding the same edges.", "quantifier": "every n>=2, every list of insertions and deletions, whatever union is pending, every schedule of the merging thread, every number of buckets, all parameters of pageRank", "why_tests_cant": "a test compares the results on a few graphs and does not choose where the pending unions and the merging thread stand", "anchors": ["include/algorithm/Algorithm.hpp: count_triangles, count_triangles_dummy, count_triangles_dummy_hash, clustering_coefficient, pageRank", "include/dktree/DKtree_delay.hpp: edge_begin, list_neighbour, contains", "include/dktree/DKtree_background.hpp: edge_begin, list_neighbour, contains"]}
{"id": "C90", "title": "Background graphs: how many edges a merge hides", "statement": "While a background merge is going on, contains can answer false for edges of the graph (C31). At any moment these are at most MAXSZ(m,0) edges, m being the number of vertices or of edges if larger; a merge begins only when the buffer holds that many edges.", "quantifier": "every n>=2, every list of calls (insertions, queries, deletions), every schedule of the merging thread, every set of edges asked about", "why_tests_cant": "a test runs with the timing the machine happens to give; how far the buffer can grow while the merging thread is held up depends on the schedule", "anchors": ["include/dktree/DKtree_background.hpp: add_edge, contains", "include/dktree/DKtree_background_wait.hpp: add_edge", "include/dktree/utils.hpp: MAXSZ"]}
{"id": "C91", "title": "Background graphs: exactly when a step is undefined", "statement": "On a background graph (with or without waiting), in-range calls have undefined behaviour in exactly one case: an insertion (of add_edge or of the rebuild inside del_edge) into the buffer when every slot of the buffer has been used since it was last emptied and some of these slots belonged to edges deleted meanwhile. In particular a program whose del_edge calls never hit an edge that is still in the buffer is defined under every schedule, as long as the merging thread has not thrown.", "quantifier": "every n>=2, every list of calls with deletions, every schedule, every step", "why_tests_cant": "a negative statement over all schedules: that nothing else ever leaves a container cannot be observed by running some of them", "anchors": ["include/dktree/DKtree_background.hpp: add_edge, del_edge", "include/dktree/DKtree_background_wait.hpp: add_edge, del_edge", "include/dktree/Container0.hpp: insert, erase, resize"]}
{"id": "C92", "title": "Deleted edges do not pile up in the trees", "statement": "A tree only marks a deleted edge and goes on storing the pair. Whatever was added and deleted before: a del_edge that returns either deleted an edge of the buffer and left the trees alone, or leaves at most one deleted pair stored, or no more than edges/log2(log2(edges)); no add_edge increases their number; and there are never more deleted pairs stored than vertices or edges.", "quantifier": "every tree implementation, history and call", "why_tests_cant": "the rebuild is triggered by a real-valued threshold and merges trees whose number and age depend on the whole history", "anchors": ["include/dktree/DKtree.hpp: del_edge, add_edge"]}
{"id": "C93", "title": "Deleted edges do not pile up in the other graphs either", "statement": "As C92, for the delayed-union graph and, step by step under every schedule, for the background graphs: a deletion leaves the tree it was made in with no more deleted pairs than edges/log2(log2(edges)) allows, and nothing else increases their number in any tree.", "quantifier": "every tree implementation, history, schedule and step", "why_tests_cant": "the trigger looks at one tree only and the rebuild is another one in each class; merges run in between", "anchors": ["include/dktree/DKtree_delay.hpp: del_edge", "include/dktree/DKtree_background.hpp: del_edge, union", "include/dktree/DKtree_background_wait.hpp: del_edge"]}
{"id": "C94", "title": "The only background-wait graph of a process, with deletions", "statement": "In a process that constructs a single DKtree_background_wait graph, with calls of del_edge too: the process-wide flags, the merging thread's start and end and the destructor add nothing to what the graph does on its own. For every interleaving, while the merging thread has not thrown: answers given outside a merge are complete, nothing is invented, an edge never inserted while present is reported only while present and the edge count is right; a step is undefined exactly when an insertion finds the buffer's slots worn out by deletions, never in a destructor or merging thread; calls and the destructor return after a bounded number of rounds; once the destructor has returned the merging thread never touches the object and ends within two steps. The merging thread does not throw before n-1 deletions.", "quantifier": "every n>=2, every list of calls, every schedule", "why_tests_cant": "schedules cannot be enumerated by unit tests", "anchors": ["include/dktree/DKtree_background_wait.hpp: union_collection_wait, add_edge, del_edge, contains, list_neighbour, ~DKtree_background_wait"]}
{"id": "C95", "title": "Background-wait graphs: a call that waits returns, and exactly when", "statement": "On DKtree_background_wait, with any number of graphs in the process and wait() allowed to return without a notification: a call that has to wait for the merging thread (an insertion that flushes, del_edge, the destructor) returns, provided every thread keeps being scheduled, if and only if no merge is wanted any more, or no graph has been destroyed since the last one was built, or a merging thread is at work; in the other case it never returns. In particular the first call after a destructor returns. After a destructor has run and with no further calls, every merging thread ends.", "quantifier": "every number of graphs, every schedule, every number of spurious wake-ups", "why_tests_cant": "that a call returns under every schedule, or under none, is not observable in finitely many runs", "anchors": ["include/dktree/DKtree_background_wait.hpp: cv_w, m_mutex, needs_work_w, run_w, union_collection_wait, add_edge, del_edge, ~DKtree_background_wait"]}
{"id": "C96", "title": "pageRank in floating point: finite, non-negative, with the right sum", "statement": "Computed in IEEE 754 double (and float where the code writes 1.0f / size()), in any rounding mode and with any convergence bound, on a graph with at least one edge and 0<=alpha<=1, pageRank is defined, no rank is infinite, NaN or negative, and after the t iterations made the ranks sum to at most the sum of exact arithmetic (1 + alpha^t (n/m - 1)) up to a relative error of 1/100000 per iteration, and if the convergence bound is 0 (all max_iterations iterations are made) also to at least that; with alpha > 15/16 for at most a million iterations. If every vertex has an out-edge, the bound is 0 and max_iterations <= 1000, the sum is between 0.9899 and 1.0102. The edge is needed: on a graph without edges every rank is +infinity.", "quantifier": "every history that leaves an edge, every n in [2, 2^31], every rounding mode, every finite alpha in [0,1], every convergence bound, every number of iterations", "why_tests_cant": "rounding errors, overflow and NaN depend on all the values of all the iterations; a test compares a few ranks with a tolerance", "anchors": ["include/algorithm/Algorithm.hpp: pageRank"]}
