#!/usr/bin/env python3
# Writes properties.jsonl. One entry per property: id,title,statement,quantifier,why_tests_cant,anchors
import json
P=[]
def p(id,title,statement,quantifier,why,anchors):
    P.append(dict(id=id,title=title,statement=statement,quantifier=quantifier,why_tests_cant=why,anchors=anchors))
DK="include/dktree/DKtree.hpp"; C0="include/dktree/Container0.hpp"; DL="include/dktree/DKtree_delay.hpp"
MU="include/dktree/DKtree_delay_.hpp"; BG="include/dktree/DKtree_background.hpp"; BW="include/dktree/DKtree_background_wait.hpp"
US="include/dktree/union_support.hpp"; EI="include/dktree/DKtreeEdgeIterator.hpp"; NI="include/dktree/DKtreeNeighbourIterator.hpp"
ND="include/dktree/DKtreeNodeIterator.hpp"; CN="include/dktree/Container0NeighIterator.hpp"; AL="include/algorithm/Algorithm.hpp"
HT="include/dktree/EdgeHashTable.hpp"; UT="include/dktree/utils.hpp"; GR="include/graph/Graph.hpp"
p("C01","Membership is exact after any sequence of insertions",
 "On a graph of n>=2 vertices, after add_edge has been called on any list of in-range edges, contains(x,y) is true exactly for the edges in that list.",
 "every n>=2, every finite list of in-range edges (any length, any duplicates), every pair (x,y)",
 "the list length, and hence the number and placement of flushes and merges between the buffer and the eight compressed trees, is unbounded",
 [DK+": DKtree::add_edge, contains, contains_forced", C0+": Container0::insert, contains"])
p("C02","get_number_edges is the number of distinct edges inserted",
 "After any list of in-range add_edge calls on a graph of n>=2 vertices, get_number_edges() equals the number of distinct edges in the list (re-adding an edge changes nothing).",
 "every n>=2 and every finite list of in-range edges","needs every interleaving of duplicates with flushes",
 [DK+": add_edge, get_number_edges"])
p("C03","Insertion is total: it never throws and never touches memory out of bounds",
 "On a graph of n>=2 vertices, no sequence of in-range add_edge calls throws 'collection too big' or performs an out-of-bounds or null access.",
 "every n>=2 and every finite list of in-range edges","the throw depends on a floating-point threshold and on the accumulated sizes of all trees; tests reach only a few sizes",
 [DK+": add_edge lines 105-120", UT+": MAXSZ", C0+": insert, resize"])
p("C04","list_neighbour returns exactly the out-neighbours, each once",
 "After any list of insertions, list_neighbour(x) is a duplicate-free list containing y iff edge (x,y) was inserted.",
 "every n>=2, every list of in-range edges, every in-range x","every distribution of the edges of x between buffer and trees",
 [DK+": list_neighbour", C0+": list_neighbours"])
p("C05","The neighbour iterator visits exactly what list_neighbour returns, in the same order",
 "Walking neighbour_begin(x) until neighbour_end() yields the sequence list_neighbour(x) and terminates (vertex ids below 2^31).",
 "every reachable graph and every in-range x","every combination of empty/non-empty buffer chain and trees",
 [NI+": DKtreeNeighbourIterator", CN+": Container0NeighIterator", DK+": neighbour_begin, list_neighbour"])
p("C06","The edge iterator enumerates every edge exactly once (insert-only graphs)",
 "After any list of insertions, walking edge_begin() to edge_end() terminates and yields every inserted edge exactly once, provided the self-loop (9999999,9999999) is not an edge.",
 "every n>=2 and every finite list of in-range edges without the sentinel self-loop","every distribution of edges over buffer and trees",
 [EI+": DKtreeEdgeIterator", DK+": edge_begin, edge_end"])
p("C07","The edge iterator enumerates exactly the live edges also after deletions",
 "Walking edge_begin() to edge_end() yields exactly the live edges, also after del_edge on buffered edges.",
 "every history of add_edge/del_edge","needs every history mixing deletions with a non-empty buffer",
 [EI+": operator++, constructor", C0+": edge_begin, size, erase"])
p("C08","The edge iterator's end value is not a legal edge",
 "No legal edge of a graph compares equal to edge_end().",
 "every vertex id permitted by etype","only a graph with more than 9999999 vertices shows it",
 [EI+": MAX_SIZE_EDGE, is_end, operator=="])
p("C09","The node iterator enumerates 0..n-1",
 "Walking node_begin() to node_end() yields 0,1,...,n-1 in order and terminates; on the empty graph it is empty.",
 "every n < 2^31","all sizes",
 [ND+": DKtreeNodeIterator", DK+": node_begin, node_end"])
p("C10","Membership is exact after any insert/delete history that completes",
 "For every history of in-range add_edge/del_edge calls that never adds the self-loop (1,1) and runs to completion (no exception, no undefined behaviour), contains(x,y) is true iff the last operation on (x,y) was an add.",
 "every n>=2, every history of add/del of any length, any floating-point thresholds","unbounded histories; deletion rebuilds happen at data-dependent points",
 [DK+": add_edge, del_edge, contains"])
p("C11","Deleting an edge never removes another edge",
 "del_edge(x,y) leaves every other edge of the graph present.",
 "every reachable graph, every edge","the loss needs a rebuild with a non-empty buffer and the self-loop (1,1) present",
 [DK+": del_edge lines 206-244"])
p("C12","Deleting an edge is memory safe",
 "del_edge never dereferences a null tree.",
 "every reachable graph, every edge","needs a rebuild with an empty buffer while (1,1) is present",
 [DK+": del_edge lines 217-243"])
p("C13","get_number_edges is the number of live edges after any insert/delete history",
 "After any add/del history get_number_edges() equals the number of edges for which contains is true.",
 "every history of add/del","depends on whether a rebuild happened",
 [DK+": del_edge, get_number_edges"])
p("C14","Re-inserting after deleting a buffered edge is memory safe",
 "add_edge after del_edge never accesses the buffer out of bounds.",
 "every history of add/del","depends on the number of dead buffer slots relative to the floating-point capacity",
 [DK+": add_edge", C0+": insert, erase, resize, size"])
p("C15","add_edge throws only when it changes nothing",
 "If add_edge throws 'collection too big' the graph is unchanged (strong exception guarantee); on a graph of 0 vertices it always throws.",
 "every state and every edge","needs every state in which the throw can happen",
 [DK+": add_edge lines 111-121"])
p("C16","Insertion is possible whatever was deleted before",
 "add_edge never throws 'collection too big' on a graph whose live edge count fits.",
 "every add/del history","needs marked-but-counted edges to accumulate",
 [DK+": add_edge, del_edge"])
p("C17","list_neighbour still sees every live edge after deletions",
 "After any add/del history list_neighbour(x) returns every live out-neighbour of x.",
 "every add/del history","needs a rebuild that places the merged tree above the highest level used so far",
 [DK+": del_edge line 242, list_neighbour, get_max_r"])
p("C18","The buffer behaves as a set with adjacency lists",
 "After any history of insert/erase on the uncompressed container that stays within its capacity: contains is exact, erase returns whether the edge was present, size() is the number of live edges, and list_neighbours(x) returns exactly the live out-neighbours of x, most recent first, and terminates.",
 "every capacity, every history of insert/erase within capacity, every x","pointer surgery on index-linked lists must hold for every interleaving",
 [C0+": insert, erase, contains, list_neighbours, size", HT+": EdgeHashTable, NodeEdge"])
p("C19","Buffer round trip through serialization",
 "Saving and loading a buffer from which nothing was deleted since the last flush yields a buffer with the same contents, the same neighbour lists and equal under ==.",
 "every buffer state without deletions","every insertion order and every adjacency structure",
 [C0+": save, load, operator=="])
p("C20","Saving a buffer after a deletion writes only real edges",
 "Serialization writes only edges of the graph.",
 "every add/del history","the damage is an indeterminate value",
 [C0+": save lines 234-244"])
p("C21","Serialize then load restores the graph",
 "For a graph built by insertions, serialize into an empty directory followed by load into a fresh graph yields a graph that answers contains, list_neighbour and get_number_edges identically and is equal under ==.",
 "every insert-only graph","every population of the eight trees",
 [DK+": serialize, load, operator=="])
p("C22","Serialize then load restores the graph also in a reused directory",
 "serialize overwrites whatever an earlier serialize left in the same directory: load returns the graph serialized last.",
 "every pair of graphs serialized to the same directory","needs two graphs with different tree populations",
 [DK+": serialize lines 346-365, load"])
p("C23","A crash during serialize does not mix two graphs",
 "If the process stops at any point during serialize over an earlier snapshot, load returns the old or the new graph.",
 "every crash point in the sequence of file writes","crash points cannot be enumerated by unit tests",
 [DK+": serialize"])
p("C24","The delayed-union graph answers exactly between unions",
 "For DKtree_delay, after any list of insertions that completes, contains, list_neighbour and get_number_edges are exact at every moment, although unions are still pending.",
 "every n>=2, every list of in-range edges, every pending-union state","the pending-union state machine has unboundedly many reachable states",
 [DL+": union_delay, add_edge, contains, list_neighbour"])
p("C25","The delayed union always finishes in time",
 "The branch marked 'cannot happen' in DKtree_delay::add_edge is never reached.",
 "every n>=2 and every list of in-range edges","needs a buffer much smaller than the number of trees",
 [DL+": add_edge lines 139-181"])
p("C26","Deletion in the delayed-union graph is memory safe and complete",
 "del_edge on DKtree_delay never leaves the graph in a state where a later add_edge dereferences a null tree, writes past the array of trees, or hides live edges from list_neighbour.",
 "every add/del history","needs deletion while a union is pending",
 [DL+": del_edge, union_delay"])
p("C27","The incremental bitmap union computes the union",
 "Running unionOperation until has_finish() (in whatever slices the per-call budget imposes) leaves at the target level exactly the tree of the union of all edges of the new tree and of the merged levels, and an edge count equal to its number of edges; it never reads or writes a bitmap out of bounds and always terminates.",
 "every arity k>=2, every height, every set of trees, every slice budget >=1","the BFS over two bitmaps must be right for all tree shapes and all interruption points",
 [US+": k2_tree_union_support::unionOperation, initialize, result"])
p("C28","A pending incremental union hides no edge",
 "In DKtree_delay_munro contains(x,y) is true for every inserted edge at every moment.",
 "every list of insertions, every moment","only visible while a union is in progress",
 [MU+": add_edge, contains"])
p("C29","Incremental-union graph: neighbours are exact, deletion deletes",
 "DKtree_delay_munro::list_neighbour returns each out-neighbour exactly once and del_edge removes the edge.",
 "every list of operations","needs particular vertices and moments",
 [MU+": list_neighbour, del_edge, tmp_edge"])
p("C30","Background merging loses nothing under any schedule",
 "For DKtree_background and every interleaving of insertions with the steps of the background thread: no edge is invented, no edge is lost, and whenever the background thread is idle contains is exact.",
 "every list of insertions and every schedule of the background thread","schedules cannot be enumerated by unit tests",
 [BG+": union_collection, add_edge, contains"])
p("C31","Background merging is invisible to readers",
 "For DKtree_background contains(x,y) is true for every inserted edge under every schedule, and get_number_edges counts distinct edges.",
 "every list of insertions and every schedule","depends on the schedule",
 [BG+": contains, add_edge, get_number_edges"])
p("C32","Two background-wait graphs are independent",
 "Operations on one DKtree_background_wait graph, including its destruction, never block or corrupt another.",
 "every interleaving of two graphs and their threads","depends on the schedule; the flags are process-wide globals",
 [BW+": needs_work_w, run_w, union_collection_wait, add_edge, destructor"])
p("C33","BFS visits exactly the reachable vertices, once, in order of distance",
 "bfs(root) terminates and returns a list without repetitions containing exactly the vertices reachable from root, root first, in non-decreasing order of distance from root.",
 "every finite graph and every root","every graph shape",
 [AL+": bfs"])
p("C34","DFS visits exactly the reachable vertices once",
 "dfs(root) terminates and returns a list without repetitions containing exactly the vertices reachable from root, root first.",
 "every finite graph and every root","every graph shape",
 [AL+": dfs"])
p("C35","dfs returns a depth-first order",
 "The list returned by dfs is a depth-first traversal order (each visited vertex after the root is an out-neighbour of the most recent earlier vertex that still has unvisited out-neighbours).",
 "every finite graph and every root","needs a graph where marking at push time differs from marking at visit time",
 [AL+": dfs"])
p("C36","Hash-based triangle count is exact",
 "count_triangles_dummy_hash returns the number of triples of pairwise distinct vertices (a,b,c) with edges a->b, b->c, c->a.",
 "every finite graph","every graph shape including self-loops",
 [AL+": count_triangles_dummy_hash"])
p("C37","Iterator-based triangle count agrees with the hash-based one",
 "count_triangles_dummy returns the same number as count_triangles_dummy_hash.",
 "every finite graph","differs only on graphs with self-loops",
 [AL+": count_triangles_dummy"])
p("C38","Heavy-hitter triangle count counts triangles",
 "count_triangles returns a number that is zero only if the graph has no directed triangle.",
 "every finite graph","every degree distribution relative to sqrt(|E|)",
 [AL+": count_triangles, is_heavy_hitter, minor_degree"])
p("C39","PageRank conserves rank mass",
 "In exact arithmetic, after t full iterations of pageRank the sum of all ranks is 1 + alpha^t*(S0-1), where S0 is the initial sum; in particular it stays 1 when every vertex has an out-edge.",
 "every finite graph, every alpha, every number of iterations","every graph shape and iteration count",
 [AL+": pageRank"])
p("C40","PageRank returns a probability distribution",
 "The ranks returned by pageRank sum to 1.",
 "every finite graph, every convergence threshold","depends on when the in-loop convergence test fires",
 [AL+": pageRank lines 248-259"])
p("C41","The edge key of the hash table is collision free",
 "Two different edges of 32-bit vertices never get the same 64-bit key, and find returns -1 exactly for absent edges and otherwise the index stored last.",
 "every pair of edges of 32-bit ids, every history of insert/erase on the table","2^64 keys",
 [HT+": Hash::edge_to_uint64, EdgeHashTable::insert, find, erase, contains"])
p("C42","A copied graph is not affected by insertions into the original",
 "After copying a graph (as the Algorithm constructor does), add_edge on the original changes no answer of the copy.",
 "every graph, every list of insertions","aliasing of shared trees depends on which trees are merged",
 [AL+": Algorithm(Graph&), set_graph", DK+": k_collection, add_edge"])
p("C43","A copied graph is not affected by deletions in the original",
 "After copying a graph, del_edge on the original changes no answer of the copy.",
 "every graph, every deletion","needs the deleted edge to live in a shared tree",
 [AL+": Algorithm(Graph&)", DK+": del_edge, k_collection"])
p("C44","When exactly deletion fails",
 "del_edge never throws; it is undefined exactly when the edge is not buffered, the buffer is empty, the rebuild threshold is exceeded, and the self-loop (1,1) is another live edge or the buffer has no slot left.",
 "every n>=2, every reachable graph, every in-range edge","an equivalence over all reachable states",
 [DK+": del_edge lines 183-246"])
p("C45","contains is never spurious and exact except for (1,1)",
 "After any add/del history that completes, contains(x,y) true implies the last operation on (x,y) was an add, and the converse holds for every edge other than (1,1); no assumption on the thresholds.",
 "every n>=2, every completing history, every threshold values, every pair","unbounded histories and arbitrary rounding",
 [DK+": add_edge, del_edge, contains"])
p("C46","list_neighbour is always safe, duplicate free and sound",
 "After any add/del history that completes, list_neighbour(x) is defined, has no duplicates, and lists only present edges.",
 "every n>=2, every completing history, every x","every distribution of edges over buffer and trees after rebuilds",
 [DK+": list_neighbour, del_edge"])
p("C47","Bounds on get_number_edges after deletions",
 "After any add/del history that completes, the number of edges reported is at least the number of edges for which contains is true and exceeds it by at most the number of del_edge calls (for trees whose adj_forced is a query).",
 "every n>=2, every completing history","unbounded histories",
 [DK+": add_edge, del_edge, get_number_edges"])
p("C48","When exactly insertion is undefined",
 "add_edge is undefined exactly when the edge is absent, the buffered live edges are fewer than MAXSZ(max(n,count),0), and the slots consumed since the last flush (deleted ones included) fill the buffer even after it is grown.",
 "every n>=2, every reachable graph, every in-range edge","an equivalence over all reachable states",
 [DK+": add_edge", C0+": insert, erase, resize"])
p("C49","The compressed tree implementation is unobservable",
 "The same history on two graphs that use different correct implementations of the compressed tree ends the same way (normal, exception, undefined) and leaves the same answers of contains, list_neighbour (as a set) and get_number_edges.",
 "every pair of tree implementations meeting the contract, every history","quantifies over implementations",
 [DK+": k_collection"])
EI="include/dktree/DKtreeEdgeIterator.hpp"
p("C50","edge_begin() can be called again",
 "A second walk from edge_begin() to edge_end() yields the same edges as the first, also when the first walk advanced the reference edge_begin() returned.",
 "every reachable graph, every previous use of the member iterator","state left in a member by earlier walks",
 [DK+": edge_begin", EI+": operator=, operator++"])
p("C51","The edge walk is always defined and bounded",
 "After any add/del history that completes, walking edge_begin() to edge_end() is defined and ends, yields only edges that were added at some time, and yields exactly as many as there are edges (never more; fewer only if (9999999,9999999) was added).",
 "every n>=2, every completing history","unbounded histories",
 [DK+": edge_begin", EI+": DKtreeEdgeIterator, operator++"])
p("C52","Serialize then load restores the graph also after deletions",
 "For a graph reached by any add/del history on which serialize is defined, loading the snapshot yields a graph that contains exactly the same edges.",
 "every add/del history","needs a rebuild into a level above the highest level used before",
 [DK+": serialize lines 352-361, load, del_edge"])
p("C53","load replaces the target graph",
 "load into a graph that already holds edges leaves exactly the edges of the snapshot.",
 "every pair of insert-only graphs","needs two graphs with different tree populations",
 [DK+": load lines 382-396"])
p("C54","A delayed-union graph survives serialize and load",
 "A DKtree_delay built by insertions, serialized (whatever union is pending) and loaded into a fresh DKtree_delay, answers every query alike and accepts further insertions like the original.",
 "every completing list of insertions, every further list","the union in progress is not part of the snapshot; every phase of it must be considered",
 [DL+": serialize, load, add_edge, union_delay"])
p("C55","DKtree_delay: membership and count are exact after any add/del history",
 "After any add/del history that completes on DKtree_delay, contains(x,y) is true iff the last operation on (x,y) was an add, get_number_edges() is the number of such edges, and list_neighbour(x) is defined, duplicate free and lists only present edges; no assumption on the thresholds.",
 "every n>=2, every completing history, every threshold values","unbounded histories; every phase of the pending union",
 [DL+": add_edge, del_edge, contains, list_neighbour, get_number_edges"])
p("C56","The incremental union keeps pace with insertions",
 "A union started with m new edges has finished after m calls of unionOperation (one per insertion), so that the assertion in add_edge that the previous union has finished holds when the buffer is full again.",
 "every new tree, every collection, every target level","the work depends on the shapes of all trees merged, which grow with the history",
 [US+": constructor, unionOperation", MU+": add_edge lines 96-108"])
p("C57","PageRank is always defined and never negative","For every graph with at least one edge, every convergence threshold, every 0<=alpha<=1 and every number of iterations, pageRank returns one rank per vertex, no rank is negative, and the sum is at most the mass of the completed iterations.","every history of the graph, every parameters of pageRank","the early exit inside the vertex loop makes the result depend on all ranks; tests sample a few graphs",[AL+"::pageRank"])
p("C58","Incremental-union graph: what one insertion does",
 "For DKtree_delay_munro, add_edge(x,y) never throws; when contains reports the edge (after one step of the union in progress) the graph is unchanged but for that step; otherwise get_number_edges grows by one and contains(x,y) holds - except when the buffer is full and the union is unfinished, where the assertion fails.",
 "every n>=2, every list of operations, every in-range edge","the outcome depends on the whole history through the union in progress",
 [MU+": add_edge, contains, get_number_edges"])
p("C59","Incremental-union graph: the union is always finished in time",
 "For DKtree_delay_munro the assertion union_support.has_finish() in add_edge never fails.",
 "every n, every list of insertions","the smallest known failing run needs 2453 carefully chosen insertions",
 [MU+": add_edge", US+": unionOperation, has_finish"])
p("C60","Background graph: no data race",
 "On DKtree_background, whatever calls the (single) caller makes, no unsynchronised conflicting accesses of the calling thread and the merging thread to the same field can happen at the same time.",
 "every n, every list of calls, every schedule of the two threads","a race may exist on schedules a test never takes, and usually leaves no trace",
 [BG+": union_collection, add_edge, contains, list_neighbour, del_edge"])
p("C61","Background graph: calls return and merges end",
 "On DKtree_background a call of add_edge, contains or list_neighbour returns after a bounded number of steps of its own thread whatever the merging thread does, and a merge ends after a bounded number of steps of the merging thread whatever the caller does.",
 "every n>=2, every list of such calls, every schedule","liveness over all schedules",
 [BG+": union_collection, add_edge, contains, list_neighbour"])
p("C62","Background graph: a deleted edge is gone",
 "On DKtree_background, when del_edge(x,y) has returned and before (x,y) is inserted again, contains(x,y) is false.",
 "every n>=2, every list of calls, every schedule","the failing schedules insert an edge again while it is being merged",
 [BG+": del_edge, add_edge, contains"])
p("C63","Background graph: destruction is safe",
 "After the destructor of a DKtree_background has finished, its merging thread no longer accesses the object.",
 "every state in which the destructor is entered, every schedule","the window is a few instructions wide",
 [BG+": ~DKtree_background, union_collection, background_union.detach()"])
p("C64","The only background-wait graph of a process: nothing invented, nothing lost",
 "In a process that constructs a single DKtree_background_wait graph: for every interleaving of the calling thread (insertions, contains, list_neighbour, and the destructor) with the merging thread nothing undefined happens, no edge is invented, and an answer given while no merge is going on is complete.",
 "every n>=2, every list of calls, every schedule","schedules cannot be enumerated by unit tests",
 [BW+": union_collection_wait, add_edge, contains, list_neighbour, ~DKtree_background_wait"])
p("C65","The only background-wait graph of a process: calls and destructors return",
 "In such a process every add_edge, contains, list_neighbour and the destructor return once the merging thread and then the calling thread have taken a bounded number of steps; a flush never waits for ever.",
 "every n>=2, every list of calls, every schedule","liveness over all schedules",
 [BW+": add_edge lines 180-185, union_collection_wait, ~DKtree_background_wait"])
p("C66","The only background-wait graph of a process: destruction is safe",
 "After the destructor has finished, the merging thread never accesses the object again, and ends.",
 "every state in which the destructor is entered, every schedule","the window is a few instructions wide",
 [BW+": ~DKtree_background_wait, union_collection_wait"])
p("C67","Background-wait graphs: no wake-up is lost",
 "With any number of background-wait graphs, a thread sleeps in cv_w.wait only while its condition is false (or the notification is about to be sent by the holder of the mutex), the mutex excludes, and its holder is never blocked.",
 "every number of graphs, every schedule, spurious wake-ups included","a lost wake-up needs a precise interleaving",
 [BW+": cv_w, m_mutex, union_collection_wait, add_edge, del_edge, ~DKtree_background_wait"])
p("C68","Background graph: no undefined behaviour with deletions",
 "On DKtree_background, any in-range calls of add_edge, del_edge, contains and list_neighbour have defined behaviour (no access outside a container).",
 "every n>=2, every list of calls, every schedule","the failing runs leave the allocated buffer by one element; most memory checkers do not see it",
 [BG+": add_edge, del_edge", C0+": insert"])
p("C69","Background graph: the merging thread never ends the process",
 "On DKtree_background the merging thread never throws (an exception in it calls std::terminate).",
 "every n>=2, every list of calls, every schedule","depends on the sizes of all levels, hence on the whole history",
 [BG+": union_collection"])
p("C70","Background graphs: every call returns, del_edge included",
 "On DKtree_background and a single DKtree_background_wait, every call, including a del_edge that rebuilds the whole graph, returns after a number of steps bounded by the number of edges, if both threads keep running.",
 "every n>=2, every list of calls, every fair schedule","liveness over all schedules",
 [BG+": del_edge lines 200-260, add_edge, union_collection", BW+": del_edge"])
p("C71","Background graphs: nothing is lost",
 "On DKtree_background and a single DKtree_background_wait, after any sequence of calls and under every schedule (edges may be inserted again while present, deleted, re-inserted), contains and list_neighbour report every edge that was inserted and not deleted since, when no merge is going on while they run.",
 "every n>=2, every list of calls with deletions, every schedule","all interleavings; duplicates, deletions and rebuilds interact with pending merges",
 [BG+": add_edge, del_edge, contains, list_neighbour, union_collection", BW+": same"])
p("C72","Background graphs: nothing is invented",
 "On DKtree_background and a single DKtree_background_wait, after any sequence of calls and under every schedule, also in the middle of a merge, contains and list_neighbour report only edges that were inserted at some time before.",
 "every n>=2, every list of calls with deletions, every schedule","all interleavings, including queries that read the copy and the buffer while both change",
 [BG+": contains, list_neighbour, union_collection", BW+": same"])
p("C73","Background graphs survive serialize and load",
 "If a DKtree_background or DKtree_background_wait is serialized between two calls, whatever its merging thread is doing, into an empty directory, and loaded into a newly built graph, the loaded graph equals the original and answers as the original would, then and after any further calls.",
 "every n>=2, every list of calls, every schedule, every point at which serialize is called","serialize during a merge depends on the schedule",
 [BG+": serialize, load, operator==", BW+": serialize, load, operator=="])
p("C74","A background graph can be loaded into a default-constructed object",
 "A DKtree_background serialized while idle and loaded into a default-constructed object (as the tests do with DKtree) behaves as the original.",
 "every n>=2, every list of calls before and after, every schedule","depends on uninitialised memory and on later merges",
 [BG+": DKtree_background(), load"])
p("C75","Iterators and algorithms on the delayed-union graph",
 "On DKtree_delay, after any history of add_edge and del_edge, also while unions are pending, the edge loop visits exactly the edges of the graph, each once; the neighbour loop exactly the neighbours; breadth-first and depth-first search and the hash triangle count are right.",
 "every n>=2, every history of operations","the iterators see a state that depends on how far the delayed unions have come",
 [DL+": edge_begin, node_begin, neighbour_begin, first_container, k_collections", "include/dktree/DKtreeEdgeIterator.hpp", "include/algorithm/Algorithm.hpp"])
p("C76","Iterators and algorithms on the background graphs",
 "On DKtree_background and DKtree_background_wait, after any calls under any schedule, the edge loop visits exactly the edges of the graph, each once; the neighbour loop exactly the neighbours; breadth-first and depth-first search and the hash triangle count written as in Algorithm.hpp against these iterators are right (the class Algorithm itself copies its graph, and a graph with a thread cannot be copied).",
 "every n>=2, every list of calls, every schedule","what the iterators see depends on the state of the merge, hence on the schedule",
 [BG+": edge_begin, node_begin, neighbour_begin", BW+": same", "include/dktree/DKtreeEdgeIterator.hpp"])
p("C77","Incremental-union graphs survive serialize and load",
 "An incremental-union graph serialized between any two calls, also in the middle of a union, into an empty directory and loaded into a newly built graph, equals the original and answers as the original would, then and after any further calls.",
 "every n>=2, every list of insertions before and after, every point at which serialize is called","the effect depends on how far the union has come, and on everything called afterwards",
 [MU+": serialize, load, operator=="])
p("C78","operator== decides equality",
 "For any two graphs of the same type, whatever was done to them, a == b is defined, and true exactly if they have the same vertices and hold the same edges.",
 "every two histories of operations; background graphs: every two schedules","quantifies over pairs of histories; what is compared depends on how the edges are spread over buffer and trees",
 [DK+": operator==", C0+": operator==", MU+": operator==", BG+": operator=="])
p("C79","clustering_coefficient is a number between 0 and 1",
 "For every graph, clustering_coefficient() returns a number between 0 and 1; it is the number of triangles found by the heavy-hitter count divided by m(m-1).",
 "every n>=2, every set of inserted edges, every number of hash buckets","the bound is a counting argument over all graphs",
 ["include/algorithm/Algorithm.hpp: clustering_coefficient, count_triangles"])
p("C80","Iterators and searches on the incremental-union graph",
 "On DKtree_delay_munro, after any insertions, also in the middle of a union, the edge loop visits exactly the inserted edges, each once; the neighbour loop exactly the neighbours; breadth-first and depth-first search are right.",
 "every n>=2, every history of insertions, every tree height that fits","what the iterators see depends on how far the incremental union has come",
 [MU+": edge_begin, node_begin, neighbour_begin, first_container, k_collections", "include/dktree/DKtreeEdgeIterator.hpp", "include/algorithm/Algorithm.hpp"])
p("C81","Background graph: iterating while a merge runs",
 "On DKtree_background and DKtree_background_wait, edge_begin() and a loop from neighbour_begin(x) to neighbour_end() may run while the merging thread works: no data race, no object used after its end, and the loop visits exactly the inserted edges (neighbours), each once.",
 "every n>=2, every list of calls and schedule before, every schedule of the two threads during the loop","quantifies over the interleavings of the loop with the merge",
 [BG+": edge_begin, neighbour_begin, k_collections, max_r", BW+": same", "include/dktree/DKtreeEdgeIterator.hpp", "include/dktree/DKtreeNeighbourIterator.hpp"])
p("C82","An Algorithm object works on the graph as it was when it was built",
 "Algorithm(g) takes a copy: bfs, dfs and count_triangles_dummy_hash called on the Algorithm give the results for the edges g had when the Algorithm was built (or set_graph last called), whatever is done to g afterwards; and using the Algorithm changes nothing in g.",
 "every n, every history before and after, any number of Algorithm objects","what the copy shares with the graph shows only after the right operation on the right edge",
 [AL+": Algorithm(Graph&), set_graph, bfs, dfs, count_triangles_dummy_hash", DK+": copy constructor (implicit), k_collection"])
p("C83","A graph may be modified inside a loop over its edges or neighbours",
 "In `for (it = g.edge_begin(); it != g.edge_end(); ++it) body` and `for (it = g.neighbour_begin(x); it != g.neighbour_end(); ++it) body`, where body calls add_edge and del_edge on g: the loop visits exactly the edges (the neighbours of x) there were when it began, each once, ends, and uses nothing that has been destroyed.",
 "every n, x, every history, every body (its calls may depend on everything the loop has seen)","whether the iterator survives a call depends on where the buffer and the trees stand at that moment",
 [DK+": edge_begin, neighbour_begin, add_edge, del_edge", "include/dktree/DKtreeEdgeIterator.hpp: operator++", "include/dktree/DKtreeNeighbourIterator.hpp: operator++", "include/dktree/Container0NeighIterator.hpp: operator++"])
p("C84","Iterators are values",
 "Iterators over an unmodified graph can be copied, assigned, advanced and read in any order, any number of them at once: each goes on from its own place, unaffected by the others; an assigned iterator goes on as the one it was assigned from; *it++ is the value before the step; ++ at the end is harmless.",
 "every n, every history, every program over iterator variables","quantifies over programs; whether an assignment loses the place depends on which part of the graph each iterator has reached",
 ["include/dktree/DKtreeEdgeIterator.hpp: operator=, operator++, operator++(int)", "include/dktree/DKtreeNodeIterator.hpp: operator=, operator++", "include/dktree/DKtreeNeighbourIterator.hpp: operator++, operator++(int)", DK+": edge_begin, node_begin, neighbour_begin"])
p("C85","Iterators and algorithms after deletions",
 "After any history of add_edge and del_edge the edge loop and the neighbour loops visit exactly the edges (neighbours) the history leaves, each once, and bfs, dfs, the triangle counts and the clustering coefficient are those of the graph the history leaves.",
 "every n>=2, every history of insertions and deletions","what the iterators see depends on where the buffer and the trees stand, hence on the whole history",
 [AL+": bfs, dfs, count_triangles_dummy_hash, count_triangles_dummy, count_triangles, clustering_coefficient", "include/dktree/DKtreeEdgeIterator.hpp", DK+": edge_begin, list_neighbour, del_edge"])
p("C86","pageRank computes the PageRank iteration",
 "pageRank(convergence, max_iterations, alpha) returns, vertex by vertex, the ranks of the PageRank iteration on the graph: rank 1/m everywhere at first (m vertices have an out-edge), then in each iteration (1-alpha)/n, plus alpha/n times the rank of the vertices without out-edges, plus alpha times the sum over in-neighbours u of rank(u)/outdegree(u); stopped by the convergence test (made after each vertex) the first time the distance to the previous ranks is below n*convergence, or after max_iterations iterations.",
 "every n>=2, every history that leaves an edge, every convergence, alpha and max_iterations; every list of insertions",
 "the rank of a vertex depends on all the edges and all the iterations; a test fixes one graph",
 [AL+": pageRank"])
p("C87","pageRank approximates the PageRank of the graph",
 "For 0<=alpha<1 the PageRank equations of the graph have exactly one solution, which is a probability distribution; with the convergence test off the result of pageRank differs from it by at most alpha^t (n/m + 1) in total after t iterations; if the test ends an iteration after its last vertex, by at most alpha/(1-alpha) n convergence.",
 "every n>=2, every non-empty list of insertions, every alpha in [0,1), every number of iterations",
 "a limit: no finite number of runs shows it",
 [AL+": pageRank"])
p("C88","Triangle counts and pageRank on the incremental-union graph",
 "On the incremental-union graph count_triangles_dummy_hash returns the number of directed triangles of the inserted edges, count_triangles_dummy the number of its triples, and pageRank the PageRank iteration on the inserted edges, also while a union is in progress.",
 "every n>=2, every history of insertions, every number of pending union steps, every number of buckets; all parameters of pageRank",
 "list_neighbour, contains and the iterators of this class look at different parts of a union in progress",
 [AL+": count_triangles_dummy_hash, count_triangles_dummy, pageRank", "include/dktree/DKtree_delay_.hpp: list_neighbour, contains, edge_begin"])
p("C89","The algorithms on every kind of graph",
 "count_triangles_dummy_hash, count_triangles_dummy, count_triangles, clustering_coefficient and pageRank return on the delayed-union graph and on the background graphs, and on any of them after deletions, what they return on a plain graph holding the same edges.",
 "every n>=2, every list of insertions and deletions, whatever union is pending, every schedule of the merging thread, every number of buckets, all parameters of pageRank",
 "a test compares the results on a few graphs and does not choose where the pending unions and the merging thread stand",
 [AL+": count_triangles, count_triangles_dummy, count_triangles_dummy_hash, clustering_coefficient, pageRank", "include/dktree/DKtree_delay.hpp: edge_begin, list_neighbour, contains", "include/dktree/DKtree_background.hpp: edge_begin, list_neighbour, contains"])
p("C90","Background graphs: how many edges a merge hides",
 "While a background merge is going on, contains can answer false for edges of the graph (C31). At any moment these are at most MAXSZ(m,0) edges, m being the number of vertices or of edges if larger; a merge begins only when the buffer holds that many edges.",
 "every n>=2, every list of calls (insertions, queries, deletions), every schedule of the merging thread, every set of edges asked about",
 "a test runs with the timing the machine happens to give; how far the buffer can grow while the merging thread is held up depends on the schedule",
 ["include/dktree/DKtree_background.hpp: add_edge, contains", "include/dktree/DKtree_background_wait.hpp: add_edge", "include/dktree/utils.hpp: MAXSZ"])
p("C91","Background graphs: exactly when a step is undefined",
 "On a background graph (with or without waiting), in-range calls have undefined behaviour in exactly one case: an insertion (of add_edge or of the rebuild inside del_edge) into the buffer when every slot of the buffer has been used since it was last emptied and some of these slots belonged to edges deleted meanwhile. In particular a program whose del_edge calls never hit an edge that is still in the buffer is defined under every schedule, as long as the merging thread has not thrown.",
 "every n>=2, every list of calls with deletions, every schedule, every step",
 "a negative statement over all schedules: that nothing else ever leaves a container cannot be observed by running some of them",
 ["include/dktree/DKtree_background.hpp: add_edge, del_edge", "include/dktree/DKtree_background_wait.hpp: add_edge, del_edge", "include/dktree/Container0.hpp: insert, erase, resize"])
p("C92","Deleted edges do not pile up in the trees",
"A tree only marks a deleted edge and goes on storing the pair. Whatever was added and deleted before: a del_edge that returns either deleted an edge of the buffer and left the trees alone, or leaves at most one deleted pair stored, or no more than edges/log2(log2(edges)); no add_edge increases their number; and there are never more deleted pairs stored than vertices or edges.",
"every tree implementation, history and call","the rebuild is triggered by a real-valued threshold and merges trees whose number and age depend on the whole history",
["include/dktree/DKtree.hpp: del_edge, add_edge"])
p("C93","Deleted edges do not pile up in the other graphs either",
"As C92, for the delayed-union graph and, step by step under every schedule, for the background graphs: a deletion leaves the tree it was made in with no more deleted pairs than edges/log2(log2(edges)) allows, and nothing else increases their number in any tree.",
"every tree implementation, history, schedule and step","the trigger looks at one tree only and the rebuild is another one in each class; merges run in between",
["include/dktree/DKtree_delay.hpp: del_edge","include/dktree/DKtree_background.hpp: del_edge, union","include/dktree/DKtree_background_wait.hpp: del_edge"])
p("C94","The only background-wait graph of a process, with deletions",
"In a process that constructs a single DKtree_background_wait graph, with calls of del_edge too: the process-wide flags, the merging thread's start and end and the destructor add nothing to what the graph does on its own. For every interleaving, while the merging thread has not thrown: answers given outside a merge are complete, nothing is invented, an edge never inserted while present is reported only while present and the edge count is right; a step is undefined exactly when an insertion finds the buffer's slots worn out by deletions, never in a destructor or merging thread; calls and the destructor return after a bounded number of rounds; once the destructor has returned the merging thread never touches the object and ends within two steps. The merging thread does not throw before n-1 deletions.",
"every n>=2, every list of calls, every schedule","schedules cannot be enumerated by unit tests",
[BW+": union_collection_wait, add_edge, del_edge, contains, list_neighbour, ~DKtree_background_wait"])
p("C95","Background-wait graphs: a call that waits returns, and exactly when",
"On DKtree_background_wait, with any number of graphs in the process and wait() allowed to return without a notification: a call that has to wait for the merging thread (an insertion that flushes, del_edge, the destructor) returns, provided every thread keeps being scheduled, if and only if no merge is wanted any more, or no graph has been destroyed since the last one was built, or a merging thread is at work; in the other case it never returns. In particular the first call after a destructor returns. After a destructor has run and with no further calls, every merging thread ends.",
"every number of graphs, every schedule, every number of spurious wake-ups","that a call returns under every schedule, or under none, is not observable in finitely many runs",
[BW+": cv_w, m_mutex, needs_work_w, run_w, union_collection_wait, add_edge, del_edge, ~DKtree_background_wait"])
p("C96","pageRank in floating point: finite, non-negative, with the right sum",
"Computed in IEEE 754 double (and float where the code writes 1.0f / size()), in any rounding mode and with any convergence bound, on a graph with at least one edge and 0<=alpha<=1, pageRank is defined, no rank is infinite, NaN or negative, and after the t iterations made the ranks sum to at most the sum of exact arithmetic (1 + alpha^t (n/m - 1)) up to a relative error of 1/100000 per iteration, and if the convergence bound is 0 (all max_iterations iterations are made) also to at least that; with alpha > 15/16 for at most a million iterations. If every vertex has an out-edge, the bound is 0 and max_iterations <= 1000, the sum is between 0.9899 and 1.0102. The edge is needed: on a graph without edges every rank is +infinity.",
"every history that leaves an edge, every n in [2, 2^31], every rounding mode, every finite alpha in [0,1], every convergence bound, every number of iterations",
"rounding errors, overflow and NaN depend on all the values of all the iterations; a test compares a few ranks with a tolerance",
[AL+": pageRank"])
with open("/verif/properties.jsonl","w") as f:
    for x in P: f.write(json.dumps(x)+"\n")
print(len(P))
