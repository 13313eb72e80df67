# A Rocq model of jhrotko/dynamic_k2tree

## 1. Layout

Everything is in `rocq/theories` (logical name `Verif`), Coq 8.16.1. A definition that models code carries a comment with the file and
lines of `/repo` it models and with every simplification.

| code | model | proofs | theorems |
|---|---|---|---|
| what a graph is, histories, walks; nothing of the implementation | `Spec`, `AlgoSpec`, `BgSpec`, `BgDelSpec` | | |
| `utils.hpp` (MAXSZ, TAU) | `Thresholds`, `Table`, `Table2`, `Table3`, `Table4` (certified values) | | |
| `sdsl::k2_tree` (external) | `K2` (interface + contract + a reference instance), `K2Rev` (a second instance), `K2Bits` (an instance on the bitmaps of `Bits`) | | |
| `Container0.hpp` | `C0` | `C0Proof`, `C0Hist` | `Prop_C0` |
| `DKtree.hpp` | `DK` | `DKProof`, `DKHist`, `DKGuard`, `DKTotal`, `DKBisim`, `DKFull` | `Prop_DK`, `Prop_DKLarge`, `Prop_Reclaim` |
| the four iterator classes, `neigh_it` | `Iter`, `IterVal` | `IterProof`, `IterValProof`, `IterPos` | `Prop_Iter`, `Prop_Iter2`, `Prop_IterVal`, `Prop_IterAsg` |
| `serialize`, `load`, `operator==`, the directory | `Serial` | `Serial` | `Prop_Serial`, `Prop_Load` (load, exactly) |
| `DKtree_delay.hpp` | `Delay` | `DelayProof`, `DelayBisim`, `DelayExact` | `Prop_Delay`, `Prop_DelayExact` |
| `union_support.hpp` on bitmaps | `Bits`, `Union` | `UnionProof`, `UnionMerge`, `UnionEdges` | `Prop_Union` |
| `DKtree_delay_.hpp` (DKtree_delay_munro) | `Munro` | `MunroProof`, `MunroTime` | `Prop_Munro` |
| `DKtree_background.hpp`, `DKtree_background_wait.hpp` (one graph) | `Bg`, `BgLife` (destructor), `BgIter` (iterating while it works) | `BgProof`, `BgTime`, `BgDel`, `BgDelTime`, `BgView`, `BgSerial` | `Prop_Bg`, `Prop_BgDel`, `Prop_BgFew`, `Prop_BgView`, `Prop_BgDelView`, `Prop_BgIter`, `Prop_BgIter2`, `Prop_BgIterDel`, `Prop_BgFoot`, `Prop_BgHide`, `Prop_BgHideDel`, `Prop_BgUB`, `Prop_BgSerial` |
| several `DKtree_background_wait` graphs sharing the global flags | `Proc`, `Cv` (mutex and condition variable) | `ProcProof` | `Prop_Proc`, `Prop_ProcDel`, `Prop_CvLive` |
| `Algorithm.hpp` bfs, dfs, triangle counters; `EdgeHashTable.hpp` | `Algo` | `AlgoProof`, `TriProof` | `Prop_Algo`, `Prop_SearchOrder` (exact orders), `Prop_Heavy` (exact counts), `Prop_AlgoDel`, `Prop_CountExact` (with deletions), `Prop_AlgoAll` (every kind of graph), `Prop_MunroTri` |
| `Algorithm.hpp` pageRank | `PageRank` (real numbers), `PRFloat` (IEEE 754) | `PRProof`, `PRExact`, `PRFloatProof`, `PRFloatLoop`, `PRFloatLow`, `PRFloatLow2`, `PRFloatLow3` | `Prop_PageRank`, `Prop_PageRank2` (rank by rank, limit), `Prop_PRFloat` |
| copies of graphs that share trees, Algorithm objects | `Alias` | `AliasProof`, `AliasFrame` | `Prop_Alias`, `Prop_AlgoObj` |
| a graph modified inside a loop over it | `IterMod` | `IterModProof` | `Prop_IterMod`, `Prop_IterMod2` |
| `Print Assumptions` of every theorem of the manifest | | | `Assumptions` |

## 2. Conventions

* **Outcomes.** `out A` = `Ok a` or `UB`; `res A` = `Done a`, `Thrown a` (a C++ exception, with the object as it is when it is thrown)
  or `Undefined`. UB: index out of bounds, null dereference, read of an indeterminate value, failed `assert`, use after
  destruction. It is never assumed away: a theorem that needs its absence proves it or has it as a visible hypothesis.
* **Numbers.** Vertices and counters are `N`. `n_total_edges--` wraps at 0 to 2^64-1. Where a 32-bit `int` or `uint` matters (iterators, triangle
  counters, the 64-bit key of the hash table) it is modelled.
* **Thresholds.** `MAXSZ` and the rebuild test `n_marked > n/TAU(n)` are floating-point macros. They are a parameter `T : thresholds`
  of the model; most theorems hold for every `T`. Those that need facts assume `th_real T` (the record holds the mathematically exact
  values of the formulas of utils.hpp over Coq's reals, with the IEEE values at n = 0, 1, 2) or a weaker consequence such as `th_top T`. `th_exact`
  shows `th_real` is satisfiable. Witnesses need concrete values: `Table*.v` hold rational certificates checked in the kernel.
* **The external library.** `sdsl::k2_tree` is not in /repo. `k2impl` lists the members the code calls, `k2laws` what the call sites rely on;
  theorems about graph classes quantify over every implementation meeting the laws. `K2Ref` (an edge list) and `K2Rev` (whose `adj_forced`
  revives erased edges) meet them, and C49 proves the choice unobservable. `union_support.hpp` reads the bitmaps of the trees
  directly, so there (C27, C28, C29, C56, C58, C59) the trees are bitmaps, with the textbook navigation as their meaning.
* **Loops** over containers are structural recursion; loops that need not terminate are inductive relations (a derivation exists iff
  the loop terminates without UB), so termination is part of every theorem that concludes such a relation.
* **Threads.** Interleaving of atomic steps, one shared access per step (exceptions are listed at the top of `Bg.v`), all schedules. By the DRF-SC
  guarantee of C++ this is adequate for executions without data races; races are themselves a property (C60: exactly one is possible).
  In `Proc.v` waits on the condition variable are polls; `Cv.v` models the mutex and the condition variable themselves and proves that
  no wake-up is lost (C67), which is what makes polling adequate.
* **False properties.** Many properties a user would rely on are false of this code. Then the manifest says `partial`, a theorem
  `C.._refuted` proves the negation by a concrete run (under `th_real`, for every lawful tree where possible), and `C.._partial` theorems prove what is
  true, as far as possible with the exact condition.

## 3. Trusted base

* Coq's kernel (with `vm_compute`).
* `ASSUMPTIONS.md` lists what `Print Assumptions` prints for every theorem of the manifest (regenerate: `tools/gen_assumptions.py`). Most are closed
  under the global context. Theorems that mention thresholds over the reals, and pageRank (also C96, over Flocq, which adds none), rest on the axioms of the standard library's reals:
  `ClassicalDedekindReals.sig_forall_dec`, `ClassicalDedekindReals.sig_not_dec`, `Classical_Prop.classic`,
  `FunctionalExtensionality.functional_extensionality_dep`. Nothing else. (coqchk-style listings of whole modules also show the opaque module fields of
  `Rdefinitions` and of `ssrunder`; these are standard-library module types, not used as axioms by the theorems.)
* No axiom, `Admitted`, `Variable` outside a section, functor or module type is declared here.
* The reading of the C++ source: that the definitions say what the cited lines do.
* The contract `k2laws` of the external tree, and for the bitmap theorems the level-order layout of `Bits.v`.
* libm's rounding does not move a value of `MAXSZ` or of the rebuild test across an integer or across the comparison (`th_real`).
* `boost::archive` and `k2_tree::serialize/load` invert each other; files are written whole and in program order (`Serial.v`).

## 4. Per property

`p` proved, `r` false of the code: refuted by a run, with the true part proved.

| id | | model | method |
|----|-|-------|--------|
| C01-C04 | p | `DK` | representation invariant `dk_inv`, induction over the insertions; totality from `th_real` |
| C05, C09 | p | `Iter` | remaining-sequence of an iterator state; `int` pointers modelled |
| C06, C51 | p | `Iter` | remaining-sequence invariant of the edge iterator |
| C07, C08, C50 | r | `Iter` | witnesses; exact under the stated guard |
| C10, C15, C44-C49 | p | `DK` | set-level invariant preserved by every completing step, any thresholds; C49 by bisimulation of two tree implementations |
| C11-C14, C16, C17 | r | `DK` | witnesses under `th_real`; guarded versions for "calm" and "benign" histories; C16 for every history on 32768 vertices or more (`Prop_DKLarge`: the rebuild threshold keeps the marked edges below the vertex and edge counts) |
| C18, C19 | p | `C0` | invariant relating slots, hash map and adjacency chains |
| C20 | r | `C0` | exact characterisation of when save is undefined |
| C21 | p | `Serial` | round trip |
| C22, C23, C52, C53 | r | `Serial` | stale files, crash points as prefixes of the list of writes |
| C24, C55 | p | `Delay` | invariant with the pending union; bisimulation with DKtree |
| C25, C26, C54 | r | `Delay` | C25 exactly: it holds unless n is one of 18 listed numbers (`DelayExact`: the counts alone decide, and their reachable values are explored in the kernel with the certified thresholds of `Table4`); C26 exact in calm histories |
| C27 | p | `Union`, `Bits` | the cursors of the incremental union stand at the encodings of the queue of pending subtrees; result = level-order encoding of the union |
| C56, C59 | r | `Union`, `Munro` | step counting; the witness of C59 has 2453 insertions |
| C28, C29, C58 | r, r, p | `Munro` | invariant relating copy, union in progress and buffer |
| C30, C61 | p | `Bg` | invariant over every schedule; measures for termination |
| C31, C60, C62, C63, C68, C69 | r | `Bg`, `BgDel*`, `BgFew`, `BgLife` | witnesses; what holds with deletions under every schedule (C69: fewer than n-1 of them cannot mark enough pairs to leave the thread without a tree) |
| C70, C71, C72 | p | `Bg`, `BgDel*` | one invariant over all runs: copies of each edge against the log; a decreasing measure |
| C73, C74 | r | `BgSerial` | the loaded state satisfies the invariant of the saved one, with its log; counterexamples by computation |
| C75, C76 | r | `ViewProof`, `DelayView`, `BgView` | the invariant implies what the iterators need (`holds`); no tree is empty; witnesses by computation |
| C77 | r | `MunroSerial` | simulation between the original and the loaded graph; witnesses by computation |
| C78 | r | `Serial`, `EqProof` | equal buffers have equal slots; unwritten slots stay unwritten; witnesses by computation |
| C79 | r | `Algo` | triples counted inject into ordered pairs of distinct edges |
| C80 | r | `K2Bits`, `MunroView` | unfinished union steps only take trees out; `holds` as for C75; witnesses by computation |
| C81 | r | `BgIter` | the loop as steps interleaved with the merging thread's; while no merge is asked for it only polls, so the graph does not change; a pending merge always reaches its store; a loop inside a tree is safe until the merging thread's step at that level (`Prop_BgIter2`, both directions); witnesses by computation |
| C82 | r | `Alias` | the Algorithm's graph is one more object of the process sharing its trees (constructor = copy, set_graph = assignment); `C42`/`C43` transported to the traversals through `view_traversals`; witness by computation |
| C83 | r | `IterMod` | the loop as a relation over the process of `Alias` (calls of the body on the heap of trees, the iterator's tree tracked by its cell; a tree no graph refers to is destroyed); `IterModProof`: a position in the chain of the buffer survives insertions and erasures of other slots (`pos_insert`, `pos_erase`), calls of the class only append to the heap; induction over the loop; witnesses by computation for every tree implementation |
| C84 | r | `IterVal` | programs over iterator variables (begin, copy, assign, ++, *, *it++); specification: a variable is the sequence still to visit (`IterValProof.srun`); `IterPos`: the state of an edge iterator after k steps, from which `C84_assign_exact` says for every pair of positions whether assignment keeps the place |
| C85 | r | `Algo`, `DK` | `calm_view` (from C07, C13, C17) gives the algorithms' view of a history with deletions, then the counting theorems of C36–C38, C79; `C85_hash_exact`, `C85_heavy_exact`, `C85_dummy_exact`, `C85_clustering_exact`: by the edge loop and the neighbour lists after any history; refuted by a witness on 3 vertices transferred to every tree |
| C86 | p | `PageRank` | vectors as functions on vertices; each step of the code is one step of the specified sums; induction over vertices and iterations finds the first exit |
| C87 | p | `PageRank` | one iteration contracts the L1 distance by alpha; existence by completeness of the reals (`R_complete`), uniqueness and the error bounds by the contraction |
| C96 | p | `PRFloat` | Flocq's operations with their correctness theorems; every partial rank is bounded by an exact sum times (1+2^-52)^(number of additions to it), so a pass multiplies the bound of the sum by at most 1+1/100000 and overflow is excluded by induction; from below the same with (1-2^-52)^k, and a bound of 0 never stops the loop because a sum of absolute values has no sign; the model computes the same bits as the CPU on `C96_example` |
| C88 | r | `Munro`, `MunroView`, `Prop_MunroTri` (the templates with this class) | the counting lemma of C85 at any time; while idle the neighbour lists are those of `mdk` plus one entry, whose contribution is counted; refuted by 3 insertions on 8 vertices |
| C89 | r | `Algo`, `PageRank`, `Delay`, `Bg` | one lemma from the view of a graph (C75, C76, C85) to all counts and one from its neighbour lists to pageRank (`limit_core` of C87) |
| C90 | r | `Bg` | a log of insertions with how each ended; every step keeps: a flush only with a full buffer (and, waiting, a buffered insertion only without); the counterexample is a run built by induction on B; with deletions: the hidden edges are part of the batch (invariant on top of `BgDel`'s: buffer size within the bound, n_total_edges + edges still to be re-inserted within the insertions logged, what is stored is shown by the copy or was in the buffer when the flag went up) |
| C91 | p | `Bg` | the invariant of C62/C71 plus bounds on max_r, max_r_background and max_size_background makes every step but the insertion into the buffer total; the insertion is undefined exactly without a free slot; a second invariant (slots used = edges held) for runs that spare the buffer |
| C92, C93 | r | `DK`, `Delay`, `Bg` | deleted pairs = pairs stored minus edges, per tree; each call followed through erase, sweep, threshold and rebuild; the total bound is the invariant of C16; witnesses for 2 vertices and for the delayed-union graph |
| C94 | p | `Proc`, `Bg` | a run of the process is simulated by an execution of the graph on its own (`pok`: flag, program counters and object agree), so C62, C69, C71, C72 and C91 transfer; rounds with a measure for the destructor |
| C32 | r | `Proc` | four schedules |
| C95 | p | `Cv` | a measure that every effective step decreases and a spurious wake-up raises by at most 2; somebody can always move (no deadlock) if the state is served, and an unserved state stays so |
| C64-C67 | p | `Proc`, `Cv` | invariant over every schedule; measures |
| C33, C34, C36, C41 | p | `Algo` | loop invariants; counting lemmas; injectivity of the key |
| C35, C37, C38 | r | `Algo` | witnesses and exact guarded statements |
| C39, C57 | p | `PageRank` | sum invariant over the reals |
| C40 | r | `PageRank` | witnesses, distribution without dangling vertices |
| C42 | p | `Alias` | heap of tree cells, frame argument, simulation with unshared graphs |
| C43 | r | `Alias` | exact condition of the leak |

## 5. Not modelled

* CPU time, memory use, the distribution of the hash function, rehashing of `unordered_map`, C++ copy and move costs.
* Rounding in pageRank outside C96 (C39, C40, C57, C86, C87, C89 use exact reals; C96 has no fused multiply-add and no wider intermediates); `sqrt` in `is_heavy_hitter` is `deg^2 >= edges`; `clustering_coefficient` divides exactly.
* The default constructors, except DKtree_background's as a target of load (they leave counters uninitialised; nothing may be called on such
  an object but `load` and assignment).
* Copying a member that a default or end iterator leaves indeterminate (an integer or a pointer that is copied along and never looked at) counts as harmless;
  the standard calls even the copy of an indeterminate `uint64_t` undefined. A comparison or a dereference that looks at one is UB in the model.
* `Algorithm<Graph>` copies its graph by value, so it cannot be instantiated with the background graphs (`std::thread`, `std::atomic` members). What C76 and C89
  say of searches, counts and pageRank on them is about the same loops written against their iterators.
* The byte format of archives, `clean_serialize` beyond removing the files, the private debug printing, `evaluation/*.cpp` and `test/`.
* The C++ memory model below sequential consistency (see Threads).
* Overflow of 32-bit fields beyond the places listed in section 2.
