# Formal model of NWGraph (headers under /repo/include/nwgraph) in Rocq 8.16

Sources are read as text; nothing in /repo is built or changed. All Coq sources are in
`rocq/theories`, logical prefix `Verif`, standard library only.

## 1. Conventions of the model

* **Outcomes.** A C++ computation is a total Gallina function returning `res A`
  (`Base.v`): `Ok a`, `Ub` (out-of-bounds access, `front()` of an empty container, division by
  zero, reading an indeterminate value, ...), or `OutOfFuel` (fuel of a `while` loop exhausted).
  Theorems state that the result is `Ok`, with fuel chosen explicitly, so termination and memory
  safety are part of every "returns ..." claim.
* **Arrays.** `std::vector` is `list`; `v[i]` is `vget`/`vset`, which return `Ub` outside the bounds
  (never a default element).
* **Vertex ids.** `nat` indices. Where the type width matters (wrap-around, sentinels) the model uses
  `N`/`Z` with explicit `mod 2^32` / `mod 2^64`, or takes the largest value `vmax` of the id type
  as a parameter so that `num_vertices <= vmax` is a visible hypothesis.
* **Graphs.** An `adjacency_list_graph` argument is the list of its rows; `graph[u]` with `u` out of
  range is `Ub`. The CSR container itself is modelled separately (`CsrModel.v`) with a function
  `csr_rows` that connects both views.
* **Unstable sorts.** `std::sort` is a parameter `srt` of the model; theorems quantify over every
  `srt` that returns a permutation sorted by the comparison (`is_sort`), i.e. over all results the
  C++ standard allows.
* **Concurrency.** Parallel loops are modelled as interleavings of atomic steps (loads, stores, CAS,
  fetch_or); theorems quantify over all schedules. Memory is sequentially consistent; the code uses
  the `__atomic`/`std::atomic` defaults (seq_cst) for the modelled accesses unless said otherwise.
* **Numbers.** Edge weights are `Z` (or `Q` where the code divides); floating point rounding is
  not modelled.
* **Findings.** Where the natural claim is false of the code, a theorem named `..._refuted` (or a universal
  statement of the wrong behaviour) gives it, and the property text says so.

Per component there are: `XModel.v` (definitions with file/line citations, no proofs),
`XSpec.v` or a spec section (independent specification), `XProofs.v`, and `XProperties.v` (theorem
statements closed by `exact`, examples, `Print Assumptions`).

## 2. Plan per property

C01 edge list: `EdgeListModel` (push_back on columns, cardinality with wrap mod 2^32). Induction on the push sequence; refutation by witness for id 2^32-1.
C02/C03 CSR build: `CsrModel.fill_directed/fill_undirected` over columns, any `srt`. Spec: row u is a `Permutation` of the filtered edge list. Proof: counting sort argument (prefix sums of counts delimit the blocks of a key-sorted list).
C04 over-long outer range: universal theorem that iterating `begin()..end()` is `Ub`, plus positive theorem for explicit N.
C05 CSR push_back: invariant: counts per row; exclusive scan = prefix sums.
C06 source: upper_bound on a monotone list, uniqueness from monotonicity.
C07 sort_to_be_indexed: per-row permutation; refutation of attribute pairing by witness.
C08 triangularize: fold invariant on new indices/new columns.
C09 permute_by_degree: positive theorem under involution; refutation by witness.
C10 degrees: counts; interleaving invariance of atomic increments.
C11 perm_by_degree: from `is_sort`.
C12 relabel: inverse permutation built by scattered writes.
C13 triangular/uniq/loops pipeline: list lemmas on adjacent-unique of a sorted list.
C14 push_back fills: fold invariant per row.
C15 labelled data: association map with last-wins/insert-default semantics of std::map.
C16 bipartite/join: counting lemma over nested loops; refutation of idx=1 by universal Ub statement.
C17 serialization: byte-level writer/reader, little endian; `read (write x ++ rest) = (x, rest)`. Readers are shown to need every byte they take, so every proper beginning of a file is truncated (TruncProperties.v); the code does not look at the stream's state afterwards.
C18 prefix equality: model of 3-iterator std::equal with Ub past the end.
C19 block; C20 log2: arithmetic.
C21/C22 bit vector: words as N, interleaved fetch_or; iterator scanning words; split tree.
C23 intersection: two-pointer merge versus multiset min.
C24/C25 union-find: rank/forest invariant, partition = equivalence closure of unions; for combineByHeight depth bounds under compression and linking.
C26/C27/C28 ranges: iterators as positions; split trees by induction on trees.
C29-C31 BFS: level invariants; verifier characterised; parallel version as nondeterministic steps.
C32-C34 SSSP: label-correcting invariants, potential for termination.
C35/C36 components: interleaving model of link; off-by-one universal statements.
C37 triangles: double counting against the triple specification.
C38 Kruskal: cut/exchange argument through threshold connectivity.
C39-C41 MIS, DAG range, colouring: loop invariants; witnesses for the refutations.
C42 SpGEMM: map accumulation per row versus sum over k.
C43/C44 BFS ranges: iterator state machines, level invariants.
C45 Matrix Market: text printer/parser over ASCII strings.
C46 fetch_add: interleaving of load/CAS steps.
C47 random/reverse ranges: all oracle streams.
C48 Brandes: exact rational dependency recursion.
C49 k_core: witness.
C50 jaccard: per-edge value from intersection_size.
C51 CSR serialization: byte-level, width of the index type explicit.
C52/C53 afforest and verifier with corrected array size: components by interleaving invariants.
C54 height: rank bounds size (2^rank <= class size); linear runs by explicit sequence.
C55 exponential dijkstra: exact iteration count on a recursive ladder family.
C56 dfs ranges: discovery lists by an inductive definition; non-termination by an invariant on the cursor;
dfs_range against the recursive search (post-order).
C57 parallel delta_stepping: forking task pool; label invariant of C33 with the running tasks as pending work; a rank
that grows at each label change for the undefined read.
C58 page_rank: every interleaved sweep is an asynchronous sweep (each value read is old or new); contraction in the
relative error against the solution, which exists (elimination) and is unique.
C59 filtered bfs range: the fifo invariant of C44 over the graph of the arcs that pass; any state of the traversal can
be completed to a breadth-first tree.
C60 back_edge_range: references as places, maps as sorted association lists; one invariant, parametrised by the set of
arcs asked for so far, covers the constructor and all histories of calls.
C61/C62 experimental connected components: task pools; hooks as pending edges (C61); for the racy versions, labels never
leave the component, roots are only lost, and an iteration without change leaves no arc between two labels (C62).
C63 label propagation: invariant of a round, sum of the labels for the outer loop; for workers without a frontier, simulation by a run with one frontier more.
C64 MatrixMarketFile: places behind a newline as starts of lines; induction along a chain of pieces.
C65 experimental bfs: invariant of one level = what live tasks still owe each discovered vertex (mark, parent, queue);
  then the tree lemmas of C31.
C66 experimental triangle counting: every variant is a sum over rows of one per-row value, reordered; bisection against
  slices of the target vector; doubles as integers rounded to 53 bits.
C67 parallel_for/parallel_reduce: induction on the splitting tree, a relation following it.
C68 experimental delta stepping: trees of sequential/parallel compositions refine the pool of C57; v8 by a simulation; v6
  by an invariant (labels are walk lengths, bounded by simple paths over labelled vertices) and witnesses for its races.

C69 experimental PageRank: each Jacobi sweep (any parts, bracketing, schedule) is one application of the right-hand side, so
the run is the power iteration; Gauss-Seidel through the asynchronous sweeps of C58; residuals by the invariant
0 <= F(p) - p - r <= k thr.
C70 experimental betweenness: invariants relative to a level k for levels, path counts and predecessor lists (what the live
tasks still owe), shared by the sequential and the parallel versions; the backward phase by what level k still has to send.
C71 serial worklist betweenness: invariant of the worklist (breadth-first order: levels of waiting items are k then k + 1, which arcs
are still waiting, counts are sums over the arcs used); backward: what each vertex has received and how many successors are missing.
C72 parallel worklist betweenness: wrong results proved for all schedules, by invariants on the items in the buckets and in hand.
C73 bk_maxflow: invariants of the two search trees (parents' labels and distances, so walks end; residual capacities; orphans),
measures for the three stages, flow conservation; with the repaired test, no residual arc leaves a tree at a passive vertex, so the
labels are a cut as large as the flow (duality proved in BkLib.v); witnesses for the code as it is.
C74 max_flow: the state represents a skew net flow within its residual capacities (MflowLib.v), the search finds shortest residual
paths, a round pushes along one; rounds bounded by the Edmonds-Karp potential; no path gives a tight cut.
C75 jones_plassmann_coloring2: invariant of the traversal on top of C40 (colours told so far by earlier neighbours), scan of the
sorted colours.
C76 bench/tc.cpp: composition of C12, C13, C05/C14 and C37/C66; triangles are invariant under renaming because six times their number
is a sum over all ordered triples.
C77 bench/sssp.cpp: the label invariant of C32/C33 does not depend on the order in which pending vertices are taken, so the
oracle is right for every arrangement of its queue; the verifier is compared with `cut_dist`; composition with C33 and C34.
C78 read_mm_vector, is_mm, get_mm_symmetry, load_graph: a file is put together from words, comment lines, sizes and entries; the
stream functions of C20/C21 are evaluated on it symbolically.
C79 the choice of source vertices in the benchmarks: counting in parallel by the pool invariant over every split of the edge range
(C26); the drawn values are an arbitrary sequence.
C80 the connected components benchmark from the edge list to the printed clusters: the prepared arcs are described by the options,
then the theorems about the constructors (C04, C11-C13) and the algorithms (C36, C61-C63) are composed.
C81 the breadth-first search benchmark on the file: walks in the graph are chains of pairs taken backwards; then C29-C31 and C65.
C82 the betweenness benchmark on the file: the number of walks of a graph and of the reversed graph agree, hence so do distances and
the fractions of shortest paths; then C48 and C70.
C83 the PageRank benchmark on the file: the rows are the sources of the arcs into a vertex, so the equations of C58 are those of the
file; then C58 and C69, and the first ten of a permutation sorted by score.
C84 zipped columns: a program over the iterators (reads whose results it may use, assignments, moves, exchanges) run on the columns and
on an array of rows, by induction on the program; a sort then gives one permutation for all columns.
C85 Oracle of Bacon: ids and names in the order of first appearance (invariant of the reading loop), the overlap graph as "acted together"
from C02/C03, the search from C44, the tables by induction on the search, the printed trail by induction on the distance.
C86 search-based components: an invariant of the task pool (every vertex is labelled or somebody is about to label it, the counter is below
the number of vertices); in order, the state after the first v vertices; the races by explicit executions completed with a frozen set of labels.
C87 search benchmarks: for the stack, that an unvisited neighbour of a visited vertex lies above every copy of that vertex on the stack (so a vertex
popped again pushes nothing) and the measure stack + arcs of unvisited vertices; for the queue, closedness outside the queue and the measure
queue + unvisited vertices; composed with C02 for the graph of an edge list.
C88 matrix-vector and degree benchmarks: loops over positions against loops over rows; each row writes its own element, so any order of the rows;
generalised sums for std::transform_reduce; degree loops as one sequence of increments; an edge iterator over rows that end one before end().
C89 container benchmark: rows after push_back in any order; a CSR filled from an unsorted list is the list cut in pieces of the right lengths;
the counting loops and the neighbour loop as one left-to-right pass over the rows.
C90 Dijkstra benchmark: an invariant with a set of finished vertices for an abstract ordered number type (so rounding is covered);
queue length plus unscanned arcs decreases; without any assumption on the weights only the relaxedness at the end.
C91 s-overlap graph of a hypergraph: the map K counts pairs of incidences (sorted list, values as sums over the rows), any order of the iterations.
C92 Bacon numbers from the IMDB tables: the rows credits are filed under, then the search of C85; the numbers are distances, the lines a trail.
C93 numbers of authors from dblp.json, alone or with the movies: names and titles numbered as they come, the search of C85 on a graph with loops; every number is the distance plus an excess of 0 or 1 that is the same for all, the lines a shortest trail.
C94 the book's Bacon numbers: any file is lines of credits; every actor once in order of name with the least number of steps, plus an excess of 0 or 1 common to all.
C95 ProcessEdgelist: text written, processed and read in binary is the same list, also through load_graph without attributes.
C96 counting output iterators: one mutex for all counters, load and store apart; invariant on who is inside; pending assignments as a sum over threads; rounds for termination.
C97 bench/Log.hpp: columns of a row and of the header at fixed places; what runs together; names of graphs.
C98 class Times and the numbers on the command line: the map as a list sorted by its keys; one row per configuration; std::stol.

Not expressible: behaviour of headers that cannot be instantiated (`prim.hpp`,
`generators/configuration_model.hpp`); floating-point rounding; I/O errors;
wall-clock and performance claims.

## 3. Trusted base

* The Coq 8.16.1 kernel (and `coqchk`), and the standard library files that are loaded.
* **Axioms: none.** `Print Assumptions` stands after every theorem named in `MANIFEST.json` (in the `*Properties.v`
  files) and prints `Closed under the global context` for each of them, without exception. The standard
  library's `Qc` (canonical rationals) is used for scores; it needs no axiom. (The gate's report lists seven axioms of
  the ssreflect plugin's `Under_rel` interface found in loaded library files; no theorem depends on them.)
* The reading of the C++ text, i.e. that the definitions in the `*Model.v` files say what the cited lines do. This is
  the real trust; every definition cites its lines. The points where a model is simpler than the code are listed below.
* The specifications in the `*Properties.v`, `*Spec` sections and in `GraphLib.v` (walks, distances, reachability),
  `ConnLib.v` (equivalence closure), which are short and do not use the model.

### 3.1 What is modelled

| header | modelled | not modelled |
|---|---|---|
| edge_list.hpp, soa.hpp, aos.hpp | push_back, open/close, sizes, iteration, operator==, serialize/deserialize | stream output for printing, relabel members that only forward, move/copy |
| compressed.hpp, adjacency.hpp | constructors from an edge list/size/vectors, operator[], iteration, size, source, push_back/close, sort_to_be_indexed, triangularize_, permute_by_degree, degrees, serialize/deserialize | `stream_*` printing; members that cannot be instantiated (see 3.3) |
| build.hpp | sort_by, swap_to_triangular, uniq, remove_self_loops, degrees, perm_by_degree, relabel, relabel_by_degree, fill*, push_back_fill, fill_adj_list, labelled-data builders, bipartite builders, join | overloads that differ only in an execution policy |
| util/ | util.hpp log2/ceil_log2/pow2/block, AtomicBitVector, atomic.hpp fetch_add/fetch_or, intersection_size, disjoint_set (free functions and the class), parallel_for.hpp | timers, provenance, printing, type traits, tag_invoke |
| adaptors/ | edge_range, neighbor_range, plain_range, vertex_range, splittable/cyclic adaptors, bfs_range, bfs_edge_range (1, 3 and, for dijkstra_er, 2), dag_range, random_range, reverse, dfs_range, dfs_edge_range, filtered_bfs_edge_range, back_edge_range, worklist.hpp (with its users, C71 and C72) | see 3.3 |
| algorithms/ | bfs (serial, parallel, verifier), dijkstra, dijkstra_er, delta_stepping (sequential, m1, parallel), connected_components (link, compress, afforest, verifier), triangle_count, jaccard, kruskal, maximal_independent_set, dag_based_mis, jones_plassmann_coloring, spMatspMat(T), betweenness_centrality (3 versions), k_core, page_rank, boykov_kolmogorov (read with null_vertex_v a value), max_flow (read without the const) | prim (does not compile when instantiated) |
| experimental/algorithms/ | connected_components.hpp: compute_connected_components, hook, compress, push, link, pull, v1, v2, ccv1, ccv5, Afforest, sv_v6, sv_v8, sv_v9, writeMin, lpcc, lpcc_cyclic; bfs.hpp; jones_plassmann_coloring.hpp; triangle_count.hpp; delta_stepping.hpp; page_rank.hpp; betweenness_centrality.hpp: approx_betweenness_brandes, the worklist versions (noabstraction: the forward phase), bc2_v0-bc2_v4 | the backward phase of noabstraction, bfs_v4 (not instantiable) and the rest of the directory |
| io/MatrixMarketFile.hpp, io/mmio_nist.h | opening a file (banner, comments, sizes), at, the iterator, edges | real attributes, failing system calls, mm_read_mtx_array_size, mm_typecode_to_str |
| bench/tc.cpp | tc_relabel, clean, compress, worth_relabeling, TCVerifier, the version switch | option parsing, timing, logging |
| bench/common.hpp | load_graph (82-102), build_degrees, build_random_sources, load_sources_from_file (111-154) | option parsing, timing |
| bench/bc.cpp | the graph, the sources, the version switch and the verification (67-68, 81, 98-152) | option parsing, timing, print_n_ranks (never called) |
| bench/bfs.cpp | the graphs, the sources, the version switch and the verification (75-148) | option parsing, timing |
| bench/cc.cpp | print_top_n (57-76), the reader (112-161), the versions and the verification (203-244) | option parsing, timing, stream_stats, stream_indices |
| bench/pr.cpp | the graph, the degrees, the version switch, the trials, print_n_ranks (45-52, 78-165) | option parsing, timing, stream_indices |
| util/proxysort.hpp | proxysort with std::greater (36-66) | other comparisons, the asserts |
| containers/zip.hpp | iterators, rows, resize, clear (105-240, 295-297) with tuple_hack.hpp:38-46 | post-increment, operator!= (cannot be instantiated); make_zipped of temporaries (dangling) |
| examples/imdb/oracle.cpp | delink (39-54), main (89-235) | json parsing, timers, build_random_sources and the code under #if 0 |
| apb/dfs.cpp | 32-174 apb_adj (the five loops) | ApbModel.v (C87) |
| apb/bfs.cpp | 32-306 apb_adj (the eleven loops) | ApbModel.v, BfsRangeModel.v (C87) |
| apb/spmv.cpp | 29-222 apb_adj (the enabled loops) | SpmModel.v (C88) |
| apb/exec.cpp | 28-112 apb_adj | SpmModel.v (C88) |
| apb/plain.cpp | 30-490 apb_adj | SpmModel.v (C88) |
| apb/tbb.cpp | 28-262 apb_adj | SpmModel.v, RangeModel.v (C88) |
| apb/containers.cpp | 70-172 compress, run_bench; 183-198 formats | CtrModel.v (C89) |
| include/nwgraph/vofos.hpp | 74-83 push_back, size | CtrModel.v (C89) |
| apb/dijkstra.cpp | 50-275 apb_adj | ApdModel.v (C90) |
| examples/imdb/dns.cpp, main.cpp | 32-91 and 104-153 | HypModel.v (C91) |
| examples/imdb/imdb.cpp | 34-191 | ImdbModel.v (C92); timers, stream_stats, the counter printed every 8192 rows and the code under #if 0 are left out |
| examples/imdb/dblp.cpp | 52-180 | DblpModel.v (C93); json, timers, stream_stats and progress output are left out |
| examples/imdb/oracle+dblp.cpp | 35-50, 52-209 | DblpModel.v, OrcModel.v (C93) |
| examples/bgl-book/ch4_kevin_bacon.cpp | 23-81 | KbModel.v (C94) |
| bench/ProcessEdgelist.cpp | 37-68 | ProcModel.v (C95); messages and timing are left out |
| util/util_par.hpp, util/permutation_iterator.hpp | all | ItModel.v (C96) |
| bench/Log.hpp | 39-185 | LogModel.v (C97); what comes from outside (random letters, host name, date, git, macros, printed numbers) is given |
| bench/common.hpp | class Times (175-250), parse_n_threads, parse_ids (58-80) | TimModel.v (C98); clocks and the printed digits are left out |
| bench/SourceVerifier.cpp | 41-71 | printing |
| bench/sssp.cpp | dijkstra (55-89), SSSPVerifier (91-114), the version switch (119-145; parallel versions are C57 and C68), the sources main reads (196-201) | option parsing, timing, messages |
| io/mmio.hpp | reader and writer for integer/pattern values | real-valued attributes, files that cannot be opened; par_load_mm and par_read_mm (483-679), which `#if 0` removes |

### 3.2 Simplifications, by component

* Attribute columns of edge lists and CSR are zipped into one column of tuples, except where the code treats them
  differently (C07, C09, C17).
* `std::sort`, `std::stable_sort`: any result allowed by the standard (parameter `srt`).
* Parallel loops of build.hpp that touch each element once are executed in order; the ones with shared counters
  (degrees, C10), the bit vector (C21), fetch_add (C46), bfs (C31), link/compress (C35, C52), the experimental component
  algorithms (C61-C63), bfs variants (C65) and triangle counting (C66), betweenness (C48) and delta_stepping (C57) are
  interleavings at the granularity of one atomic access. Memory is sequentially consistent. Plain racy loads (C31: the load
  of `parents[v]`) are modelled as atomic.
* Parallel delta_stepping (C57): growing the bins (double-checked, under a lock) is one step, pushing into a bin another.
  What an unassigned `bool` reads is a parameter, with undefined behaviour as one of its values.
* Experimental PageRank (C69): exact rationals; in v1, vc, v4, v7-v10 the update of a vertex is one action (outgoing_contrib
  is not written during the sweep, page_rank[i] is private) and the error is one number; vc's CSR arrays are the rows; v14
  is the model of page_rank plus its return value; v12 `x > threshold` with x infinite is true; in v3 and v13 the flag
  `changed` is only ever set during an iteration.
* jones_plassmann_coloring2 (C75): the sorts of the received colours are one insertion sort (all results are equal on numbers).
* bench/tc.cpp (C76): the loader is not part of the composition (the edge list is any list of pushed edges); the heuristic compares
  exact fractions instead of doubles (its answer does not matter for the result); the rows of a CSR are those of its iteration.
* bench/sssp.cpp (C77): the array behind the priority queue is rearranged by two parameters standing for push_heap and pop_heap;
  with `strict` a call whose array is not a heap for the current distances is undefined. Weights are unsigned (an int weight is
  converted to uint64_t before the addition).
* read_mm_vector (C78): numbers in "real" files are modelled where reading a double agrees with reading an integer (digits only,
  at most 2^53); other tokens are outside the model (`None`). Allocation never fails.
* build_random_sources (C79): mt19937 and uniform_int_distribution are an arbitrary sequence of values; which values the distribution
  may return (0 up to and including num_vertices) is a hypothesis of the theorems. The loop gets fuel.
* bench/cc.cpp (C80): the versions run on the rows of the graph object, except 9, 11 and CCVerifier, whose ranges go to end() and so
  see the row too many; in version 9 the arcs are divided once for all iterations. The map of print_top_n is an association list
  with an arbitrary iteration order.
* bench/bfs.cpp (C81): the searches run on the rows of the graph objects; only version 2 uses a range that goes to end(). -a and -b
  are natural numbers other than 0.
* bench/bc.cpp (C82): the functions run on the rows of the graph object; double and float are rationals, path counts in double are
  assumed to be represented exactly; a normalisation by 0 (NaN in the program) has no result.
* bench/pr.cpp (C83): numbers are rationals and 0.85f is 17/20; after C83_undefined the degree table is a parameter with one entry
  per vertex (what build_degrees makes of the rows below size()); sorting scores that are not finite is taken as undefined.
* zip.hpp (C84): every column holds integers; an algorithm is a tree of reads, writes, moves and exchanges at given positions, so one that
  compares iterators is covered (positions are numbers), one that keeps references to elements across steps is not.
* oracle.cpp (C85): the input is the parsed lines; std::map is an association list; the order in which mismatches are printed is that of the
  association list (there are none); size_t does not wrap for counters and distances, which stay below the number of names.
* compute_connected_components (C86): the id type is unsigned with W values; one access of component_ids or the counter per step, taken as atomic
  although in C++ the plain ones are data races; the search from a vertex is taken as done in one go, since the graph does not change.
* apb/dfs.cpp, apb/bfs.cpp (C87): the neighbours of a vertex are read before the loop over them (the graph is not written meanwhile); the
  iterator, ranges and std::for_each variants are the loop over graph[vtx]; the int counter of the copy loops is not bounded; timers left out.
* apb/spmv.cpp, exec.cpp, plain.cpp, tbb.cpp (C88): the arithmetic is a parameter; the mixed float/double reduction of exec.cpp is one type with one
  addition; the rows done in parallel are done one after the other in any order (they write different elements of y).
* apb/containers.cpp (C89): the arithmetic is a parameter; reading the file is C45/C64; the options are given as read.
* apb/dijkstra.cpp (C90): numbers, their addition and comparison, and the element Q.top() refers to are parameters; the queue is a list in no particular order.
* compressed.hpp:81-89 with an empty index vector (N_ wraps to the largest size_t) is outside the model of the constructors (C04_from_vectors assumes it non-empty).
* examples/imdb/dns.cpp and main.cpp (C91): one iteration of the parallel loop is atomic up to its critical section (K is its own, G and H are only read), so a run is an order of the iterations; the reading is that of C45.
* examples/imdb/imdb.cpp (C92): a table is what xt::load_csv returns, a list of rows of cells, and reading outside it is Ub (xtensor checks nothing in operator()); parsing the files is not modelled. std::map is an association list, its operator[] gives 0 for an absent key.
* examples/imdb/dblp.cpp and oracle+dblp.cpp (C93): the files are given parsed, as entries of a title and its names. The name asked for is a parameter.
* examples/bgl-book/ch4_kevin_bacon.cpp (C94): the file is a string. The example is written against headers that have moved, and binds two names to the three parts of what bfs_edge_range yields; it is read as taking the first two. std::map is a list kept in order of the names.
* bench/ProcessEdgelist.cpp (C95): vertex ids and int have four bytes, int in two's complement. bench/js.cpp is not modelled: it includes experimental/algorithms/jaccard.hpp, which does not compile. examples/bgl-book/ch3_toposort.cpp only prints what dfs_range yields.
* util_par.hpp (C96): count++ is a load and a store; lock_guard takes the mutex in one step and waits by taking no step. get_count reads without the mutex and is used after the threads have ended.
* Times (C98): a time is an integer number of ticks, the average a total and a count, so rounding of doubles is left out; the rows are the values printed, not their digits.
* bk_maxflow (C73): the header does not compile (`null_vertex_v` is a function template used as a value); it is read with a null
  vertex there.  Rows without repetition, every arc with its reverse arc: a pointer into the graph is the arc it points to and
  `get_back_edge(p, q)` is the arc from q to p, as an adaptor with such a member would give it.  Integer capacities, on which `<= tol` is `<= 0`.  The unsigned
  `d--` at 0 would be `Ub` (proved not to happen).  The six vectors of length n_vtx are one vector of records.
* max_flow (C74): takes `const Graph&` and calls non-const members (its test is commented out in test/CMakeLists.txt); it is read
  without the `const`.  flowtype is Z.  Capacities are kept apart from the flows; the filter is evaluated for all arcs when a search
  starts (the search writes no flow); the vertices of reverse_path are collected before the loop bodies run, so for source = sink
  the model may run out of fuel where the code follows a null pointer first.
* Worklist betweenness (C71, C72): `edge_l_s[v]` of a missing key is (0, 0), as operator[] inserts it; hash sets are lists without
  repetition, iterated in an arbitrary order chosen per round; the work on an item under its two locks is one action and
  its pushes belong to it (in the code they become visible one by one, with the lock of v held); decrementing succs_ct at 0 is `Ub`; the initial 10000 (10) buckets are a parameter.
* Experimental betweenness (C70): exact rationals; `delta[v] += x` on an atomic is one step (v2), the sum of a vertex is
  local to its task (v3, v4: the backward loop is that of C48); v2's plain accesses are steps of their own.
* Experimental delta stepping (C68): v9-v11 as C57; in v8 `grow_to_at_least` is one step; in v6 every plain access is one
  step (formally a data race is undefined, the model gives it the sequentially consistent meaning).
* page_rank (C58): the unsynchronised reads and writes of `outgoing_contrib` are atomic steps; the partial sums of the
  reduction are added up in the order of the writes (exact addition is associative). A division by zero gives one
  "not finite" value that is absorbed by nothing.
* An `AtomicBitVector` inside bfs and betweenness is a list of bits (its own model is `BitModel.v`).
* Floating point: exact rationals (C48, C50, C58) or integers; rounding, NaN and infinity are not modelled, except that C48
  states where 0/0 is computed. In random_range the product `N * dice()` is exact; the double product with
  `dice() < 1` cannot reach `N` for `N < 2^53`.
* Hash maps are association lists with an arbitrary iteration order where the order is observable (C53).
* `std::priority_queue` in dijkstra is a sorted list: the pop order of equal tuples is not observable.
* MatrixMarketFile (C64): the approximation computed in double is a parameter, assumed monotone and within the body.
* Streams: characters of an ASCII file; `operator>>`, `getline`, `operator<<` for integers as in the standard.
* Allocation always succeeds; `size_t` overflow of element counts is not modelled except where a claim says so.
* A `throw;` without an active exception (which calls `std::terminate`) and failed assertions are `Ub`.

### 3.3 Not modelled, and why

* Cannot be instantiated (checked by reading): `prim.hpp`, `max_flow.hpp` with its `const` (modelled without),
  `generators/configuration_model.hpp`, post-increment of the soa iterator and of the const outer iterator,
  `make_adjacency(el, n, dir)`, `index_adjacency::serialize` on const objects,
  `disjoint_set::allToSingletons(policy)`.
* Not modelled: `graphs/` (sample data), k_truss (an empty header), experimental/jaccard.hpp and flattened.hpp (do not compile), 
  index_adj_flist's constructor from an edge list (calls fill_adj_flist, which does not exist).
* Timing, memory use, exceptions from allocation.

## 4. Findings (each is a theorem unless marked "by reading")

| property | behaviour of the code |
|---|---|
| C01 | pushing the id `W-1` of a W-valued id type wraps the vertex count to 0 |
| C04 | a CSR built from an edge list without explicit size has one outer position too many; iterating it, or triangularizing it, reads out of bounds |
| C05 | a CSR filled by push_back loses the row of the last source when that source reaches the constructed size |
| C07 | sorting the rows sorts the targets only: attributes stay behind and belong to other edges afterwards |
| C09 | permute_by_degree scrambles rows or writes out of bounds unless the degree order is an involution |
| C13 | uniq needs a sorted list; it keeps the first edge of a run |
| C15 | an unknown label silently becomes vertex 0 |
| C16 | the bipartite builder with idx 1 writes out of bounds |
| C17, C51 | a stored element larger than the receiver's overflows; directedness is not compared; a CSR with index type narrower than 8 bytes overruns its field `N_` |
| C18 | operator== accepts prefixes, and is undefined the other way round |
| C19, C20 | the assertion in block tests `N-1` (harmless); pow2's assertion rejects exponent 63 |
| C22, C26 | a cutoff of 0 makes ranges divisible forever |
| C24, C54 | disjoint_union on one class raises a rank for nothing, so trees of linear height arise; find compresses one entry only |
| C25 | disjoint_set::find ignores its argument, unions and join never merge, the range check is off by one |
| C26 | edge_range's offset is not checked against the size |
| C27 | a full split gives `2*2^(ceil log2 cutoff)` pieces; begin/end iterators may be formed past the end |
| C28 | splitting a vertex_range duplicates work; divisibility flips above half the id range |
| C31 | alpha = 0 or beta = 0 divides by zero; a plain load races with CAS; move assignment of AtomicBitVector leaks (by reading) |
| C32, C55 | dijkstra's queue is ordered by vertex first: exponential in the worst case; distances wrap when the type is as narrow as the sentinel |
| C56 | dfs_edge_range from a seed without neighbours reads past the row; self loops are yielded (and fail a debug assertion); dfs_range tests `colors_[cursor]` before the bound: it never reaches its end on an ordinary graph; its roots after the seed start at 1, so vertex 0 can be missed; a root with an empty row is yielded for ever |
| C57 | parallel delta_stepping tests a `bool` that is unassigned when an arc does not improve: undefined on every graph with a reachable cycle; harmless when it reads false, endless when it reads true |
| C58 | page_rank reads and writes the contributions without synchronisation; the scores of vertices without outgoing arcs are dropped, so the total falls below 1; a zero in the degree table of a vertex with outgoing arcs makes scores non-finite and the error test fail forever; vectors that are too short are written out of bounds |
| C59 | a source without arcs: begin() calls the filter on the end of the row; the first arc that passes is yielded even if it is a self loop, which queues the source twice and fails a debug assertion; the copy constructor leaves the target uninitialised (by reading) |
| C60 | a missing arc back is stored in two maps: get_back_edge hands out one copy, the iteration visits the other, so flow returned along such an arc is never seen by a search; get_back_edge without an arc in either direction (as-needed mode: before a call for the arc itself) dereferences the end of a map |
| C61 | compute_connected_components_v1 stops after two passes and returns several labels for one component; ccv5 and Afforest (without transpose) lose arcs of directed graphs; plain loads and stores race with compare-and-swap; with 2^32 vertices (32-bit ids) `counting_iterator<T>(size)` wraps to 0, no loop runs and all labels are 0 |
| C62 | a root is tested and stored in separate steps (hooks are lost, but found again); with 2^32 vertices the loop `for (T n = 0; n < size; n++)` never ends |
| C63 | lpcc writes out of bounds when the arena has more threads than num_bins (32); on directed graphs it computes "least vertex that reaches v", not components |
| C64 | MatrixMarketFile: a blank line (or a comment of 1024 or more characters) before the sizes makes the first edge appear twice; with another comment behind it the constructor loops for ever; blank lines in the body repeat the next edge; nnz is not compared with the number of lines; sizes beyond int are undefined behaviour; edges<int> on a pattern file takes the first number of the next line for the value |
| C65 | experimental bfs_v2 reads an uninitialised bitmap: a garbage bit gives parents to unreachable vertices. bfs_bottom_up counts in an int. v1 and v2 index the local queues by worker number without a check |
| C66 | experimental triangle_count_v12 and v13 reduce with the initial value 0.0: the count is kept in a double, and an odd count of 2^53 or more cannot be returned. triangle_count_vc forms &idxs[idxs.size()] on every graph with an arc. v1, v4, v5, v7, v12 and edgesplit_upper return 0 on lower triangular graphs (documented for some of them) |
| C67 | parallel_reduce passes init both as initial value and as identity of every body split off: a non-identity init is added a number of times that depends on stealing |
| C68 | delta_stepping_v9, v10, v11 read an uninitialised bool on every graph with a reachable cycle; v6 loses updates and drops bins when two relaxations run at once |
| C69 | page_rank_v4 with 0 threads returns the initial vector as converged; v12 returns (1-d)/n for every vertex when threshold >= 1/n (the default 1e-4 on graphs of 10^4 vertices); v3 and v13 return scores n times too large, or all zero when threshold >= 1-d; v1, v4, v6-v9 take the length of the score array for the number of vertices |
| C70 | bc2_v2 counts paths in a plain vector shared by the tasks of a level: an addition can be lost and the scores are then wrong. bc2_v0, v3 and v4 count what a source gives itself, v1, v2 and approx_betweenness_brandes do not. bc2_v4 dereferences the first arc of a graph without arcs |
| C71 | approx_betweenness_worklist_serial counts parallel arcs once where approx_betweenness_brandes counts each; it always normalises |
| C72 | tbbworklist_range and tbbworklist_range2 pop an item when the iterator is constructed or advanced and then stop if the queue is empty: the last item is dropped. approx_betweenness_worklist therefore returns wrong scores (all 0 when the sources have one out-arc each, or with num_threads = 0), does not normalise, and a self-loop makes a thread lock the same spinlock twice. noabstraction tests `buckets[top_level].empty()` before `top_level < buckets.size()` |
| C73 | bk_maxflow, lines 308 and 310: an orphan without a parent should make active the neighbours that can reach it (source tree: residual of q to p), but tests the residual of p to q (and the other way round in the terminal tree). Flows are valid but not always maximum (witness: 9 instead of 10) and the labels not always a minimum cut; with the two arcs exchanged both are proved. The returned value is offset by the negative capacities. The header does not compile |
| C74 | max_flow: at most 1001 rounds by default, and at most 100000 units a round (`min_cap = 100000`): the result is too small where more than 100000 * (max_iters + 1) units can be sent. A source that no arc touches and source = sink are undefined behaviour. With repeated arcs flow on the second copy cannot be taken back, and the flow need not be maximum (witness: 1 instead of 2) |
| C75 | jones_plassmann_coloring2: the search for a free colour stores the value 0 instead of the position found, so a colour is 0 or the number of arcs with earlier vertices. A graph with both arcs of each edge gets colour 0 everywhere. The empty graph is undefined behaviour (dag_range, as in C40). |
| C76 | bench/tc.cpp: with --lower the versions 1, 4 (the default), 5, 7, 8, 9 and 12 report 0 triangles for every graph. TCVerifier writes through `begin()` of an empty vector (only reserved): undefined exactly when there is a triangle; if the reserved memory is used, its count is right. `--relabel --heuristic` on a list without vertices divides by zero. |
| C77 | bench/sssp.cpp: the queue's comparator reads the distances being changed, so push_heap/pop_heap are called on arrays that are no heaps (undefined by the standard; any rearrangement still gives the right answer). SSSPVerifier's oracle marks unreachable vertices with max/4 while delta_stepping uses max: a right answer is reported as failed unless every vertex is reachable. The comparison reads past the oracle when the answer is longer and accepts any prefix. With -r or random sources and -i above 1 main reads past its list of sources. delta_stepping_m1 (version 1) always fails |
| C78 | read_mm_vector: a file with fewer entries than announced repeats the last one (none at all: an uninitialised variable is used); an entry 0 becomes the largest id in an integer file and is an undefined conversion in a real one; without assertions the second size is ignored; a file without a size line gives an empty list or an uninitialised size, depending on a newline at its end. load_graph accepts blank lines before the header, on which the reader ends the program |
| C79 | build_random_sources draws from 0..num_vertices inclusive, so a draw of num_vertices reads past the end of the degrees; it never ends on a graph without arcs; it picks targets of arcs, so a source may have an empty row and a vertex with arcs out only is never picked. On graphs built by the constructor the benchmarks use, the edge range itself runs one row too far (C04). bc.cpp forms &sources[size()] in its last trial. SourceVerifier returns success whatever it finds |
| C80 | cc.cpp: the default version 0 and version 7 are undefined on every file (C36), versions 9 and 11 on every file with a vertex, and --verify on every result, because the constructor makes end() one row too far (C04). Versions 5 and 10 are meant for symmetric files but are offered for -f too, where they may join nothing |
| C81 | bfs.cpp searches build_adjacency<1>, the graph with its arcs turned round: it finds the vertices from which the source can be reached, not those that can be reached from it (its verifier, given the same graphs, agrees). Version 2 reads past the graph as soon as it goes bottom-up. An unknown version with --verify reads an empty vector. The verdict of BFSVerifier is dropped |
| C82 | bc.cpp runs on build_adjacency<1>, the graph with its arcs turned round: with sources the paths that lead to them count, not those from them. Versions 0, 3, 4, 5 and the verifier credit a source with the paths that end in it, 1, 2 and 7 do not, so the same option gives different centralities and --verify rejects 1, 2, 7; 8 differs from 6 by the number of vertices that lead to each vertex. A file without edges is undefined in 4, 5 and 8. The verdict of BCVerifier is dropped; an unknown version with --verify reads an empty vector |
| C83 | bench/pr.cpp has no defined behaviour on any file: build_degrees iterates to end(), one row past the end (C04); version 6 does so again. Versions 3 and 13 leave scores n times too large. Version 0 (commented out), 5 and unknown ones leave the scores of the version before, and --verify prints those. print_n_ranks ignores its argument and prints ten entries, undefined on graphs with fewer than ten vertices |
| C84 | A zipped is as long as its first column, so a shorter later column is read out of bounds; the same container zipped twice is not changed by exchanging rows; n - it is defined as it - n |
| C85 | Somebody not linked to Bacon is reported with the number 0 and said to have starred with the first person of the file in its first title; a name not in the file is answered with the report of the first name; undefined if Bacon acted with nobody, or if the one asked about comes after everybody who acted with somebody; films with equal titles are one; delink tests opening twice, so a link without "]]" gives all text after "[[" |
| C86 | compute_connected_components shares one counter between the searches and loads it again for every vertex: in parallel any two unconnected vertices can get one label and any two connected ones different labels; on directed graphs even in order the labels are those of the last search that comes by |
| C87 | apb/bfs.cpp: the copies with int ids are indexed out of range as soon as an id from 2^31 on is met; the loops over topdown_bfs_range and bfs_edge_range ignore the start vertex (always 0), and the latter reads past an empty row if no arc enters vertex 0; -s is not checked |
| C88 | apb/spmv.cpp, exec.cpp, plain.cpp, tbb.cpp: every loop over begin() .. end(), neighbor_range, edge_range (also split by tbb) or plain_range of the graph reads a row past the end or increments an element past the end, since the graph is made from the edge list alone (C04) |
| C89 | apb/containers.cpp: --format VOV does not compile (std::vector has no open_for_push_back); the compressed container mixes the rows of a list not sorted by source; the list is undirected but every edge is used for its first end only. vofos.hpp:58-60 call fill_adj_flist, declared nowhere; num_edges_ is left uninitialised by the size constructor |
| C90 | apb/dijkstra.cpp: the start given with -s is not checked (written out of bounds); a negative cycle through the start is an endless loop; distances are along the edges backwards (adjacency<1>) |
| C91 | dns.cpp: an incidence listed twice counts twice, so two names that share a single address are taken to share s = 2 of them |
| C92 | imdb.cpp: operator[] files every credit for a title that is not listed as "movie" under row 0, the header, so unrelated people with such credits get the number 1 and the line "… starred with … in primaryTitle" |
| C92 | imdb.cpp: one with no trail to Kevin Bacon is reported with the number 0 and a line that names row 0 of both tables; one in a row after all who act with another makes it read out of range |
| C93 | dblp.cpp, oracle+dblp.cpp: the pairs pushed include each name with itself, so if that pair comes first in the row of the starting name bfs_edge_range yields it and every number printed is one too large, also the starting name's own (1 instead of 0); always so if that name has no co-author |
| C93 | dblp.cpp: a name that does not occur is answered with the report about the first name, and one with no trail with 0 and a line that is not true |
| C45 | read_mm: a first id of 2^64 or more leaves the second unset before it is used; a second id of 2^64 or more is read as 2^64 - 1 without notice |
| C94 | ch4_kevin_bacon.cpp: if no line names Kevin Bacon the end iterator of the map is dereferenced; a line that names them twice can make every number one too large; a line with fewer fields makes the empty name an actor; an actor with no chain is printed with 0 |
| C95 | ProcessEdgelist writes the attributes as a third column; load_graph into a list without attributes does not notice and leaves that column unread. With -u it says "Processing directed graph" |
| C96 | util_par.hpp defines `std::mutex mtx` in a header, not inline: two files that include it do not link, and all counters share it; par_counting_output_iterator::get_count reads without the mutex (by reading). permutation_iterator: an end made from another base is never reached |
| C97 | Log: a host name of 20 or more characters leaves host_ without an ending zero and `os_ << host_` reads past it; a branch of ten or more letters runs into the next column; graphs whose file names agree up to the first underscore get the same name |
| C45 | read_mm takes a negative id modulo 2^64 |
| C01 | a vertex count that does not fit the id type is cut to it at the first push_back |
| C98 | std::stol ignores what follows the number: `--version 1,2` runs version 1 alone, `4x` four threads; a text without a number is an exception nobody catches |
| C33 | delta = 0 divides by zero |
| C34 | delta_stepping_m1 never relaxes; dijkstra_er ignores its source and pops an empty queue |
| C36 | afforest and CCVerifier allocate one entry too many and then index the graph with it; the verifier rejects every labelling |
| C37 | the threaded triangle count returns 0 on lower triangular graphs |
| C38 | kruskal reads out of bounds when an id is not below the number of edges |
| C39 | with downward arcs only, every vertex is selected |
| C40 | dag_range is undefined without roots; dag_based_mis is undefined on empty graphs and with self loops |
| C41 | the colouring uses only colours 0 and 1, so it is improper on any graph with a triangle |
| C42 | spMatspMatT reduces from 0 even if 0 is no unit; columns of A beyond B's rows read out of bounds |
| C43 | the bottom-up range enumerates all vertices cyclically with stale parents |
| C44 | bfs_edge_range on an isolated seed reads out of bounds; a self loop at the seed is yielded |
| C45 | a directed list written as symmetric comes back mirrored (only a warning); an undirected one written with the default comes back doubled; adjacency<1> ids are shifted; square bipartite files are rejected |
| C47 | the random walk makes one step more than it yields; a sink reads into the next row; reverse_path never yields `stop`, can be endless, and can be used once only |
| C48 | normalising an empty graph dereferences end(); all-zero scores give 0/0; the parallel version and the verifier count the source, so the verifier rejects exact results; an integral accum_t truncates |
| C49 | k_core reads past rows and uninitialised members, counts isolated vertices, and is wrong in both directions on connected simple graphs |
| C50 | only arcs with u < v are weighted |
| C52, C53 | afforest on a directed graph without its transpose may mislabel; the verifier then may reject a right labelling |

Mutation tests of the model (realistic wrong edits, theorem failures, and the theorems tightened after a survivor) are in
`seeded/LOG.jsonl`.
