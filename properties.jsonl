{"id": "C01", "title": "Edge list stores exactly what was pushed and bounds every id", "statement": "After any sequence of push_back calls on an edge list, iterating it yields exactly the pushed tuples in push order, num_edges() is their count, and num_vertices() is the least number that is at least the initial size and greater than every endpoint, provided every endpoint is below 2^32-1. (An endpoint equal to 2^32-1 wraps the counter and num_vertices() no longer bounds the ids.) A vertex count given in advance that exceeds the id type is cut to it at the first push_back. Lists of either kind are open while edges are pushed and closed once built. A closed list opened again and pushed to is the list built in one go.", "quantifier": "all initial sizes, all finite sequences of pushed edges with any attributes, all 32-bit ids; unipartite and bipartite", "why_tests_cant": "needs the unbounded set of edge sequences and the exact 32-bit boundary", "anchors": ["include/nwgraph/edge_list.hpp: index_edge_list::push_back, num_vertices, num_edges", "include/nwgraph/containers/soa.hpp: push_back"]}
{"id": "C02", "title": "CSR built from a directed edge list represents exactly those edges", "statement": "Building adjacency<idx> from a directed edge list gives, for every vertex u, a row that is a rearrangement of the (other endpoint, attributes) of exactly the edges whose endpoint idx is u, whatever order the unstable parallel sort leaves equal keys in; size() is num_vertices and the number of stored edges is unchanged.", "quantifier": "all directed edge lists with endpoints below num_vertices, idx 0 and 1, all results std::sort is allowed to return", "why_tests_cant": "multisets, unbounded sizes, and every legal outcome of an unstable sort", "anchors": ["include/nwgraph/build.hpp: fill_directed, degrees, fill", "include/nwgraph/adjacency.hpp: index_adjacency", "include/nwgraph/containers/compressed.hpp: operator[]"]}
{"id": "C03", "title": "CSR built from an undirected edge list is symmetric and complete", "statement": "Building adjacency from an undirected edge list stores every edge {u,v} once in the row of u and once in the row of v (a self loop twice in its row) with its attributes, nothing else, so the stored graph is symmetric with 2*num_edges entries.", "quantifier": "all undirected edge lists with endpoints below num_vertices, all legal sort outcomes", "why_tests_cant": "symmetry over all graphs cannot be enumerated", "anchors": ["include/nwgraph/build.hpp: fill_undirected"]}
{"id": "C04", "title": "Iterating a CSR built from an edge list runs one row past the end", "statement": "For every edge list, the adjacency built by the single-argument constructors has begin()..end() covering num_vertices+1 rows although size() is num_vertices, so a full range-for over it reads indices_ out of bounds; with the explicit-N constructor and N = num_vertices the outer range has exactly N rows, all in bounds. Constructed from a non-empty sorted index vector and columns it does not overrun, iteration gives exactly the length-of-indices minus one rows the index vector describes.", "quantifier": "all edge lists", "why_tests_cant": "an out-of-bounds read usually goes unnoticed in a test", "anchors": ["include/nwgraph/adjacency.hpp:95,104,237,249", "include/nwgraph/containers/compressed.hpp: begin, end, my_outer_iterator::operator*"]}
{"id": "C05", "title": "open/push_back/close on a CSR keeps the edges pushed in source order", "statement": "Pushing edges in non-decreasing source order with all sources below N into a CSR constructed with N rows, then closing, gives rows containing exactly the pushed targets and attributes of each source in push order. A source equal to N is silently dropped from every row.", "quantifier": "all N, all edge sequences sorted by source", "why_tests_cant": "needs the loop invariant over all sequences", "anchors": ["include/nwgraph/containers/compressed.hpp: push_back, close_for_push_back", "include/nwgraph/build.hpp: push_back_fill(el,cs)"]}
{"id": "C06", "title": "source(edge) inverts the row index", "statement": "For a valid CSR and any edge position e below num_edges, source(e) is the unique vertex u whose row contains position e, also when rows are empty.", "quantifier": "all monotone index arrays, all edge positions", "why_tests_cant": "binary search over arbitrary arrays with repeated entries", "anchors": ["include/nwgraph/containers/compressed.hpp: source"]}
{"id": "C07", "title": "sort_to_be_indexed sorts rows but detaches attributes", "statement": "After sort_to_be_indexed every row's targets are sorted and a rearrangement of the same targets; row boundaries are unchanged. Attributes are left in place, so an attributed graph can end with an attribute attached to a different edge.", "quantifier": "all valid CSRs", "why_tests_cant": "rearrangement and attribute pairing over all rows", "anchors": ["include/nwgraph/containers/compressed.hpp: sort_to_be_indexed", "include/nwgraph/build.hpp: fill(sort_adjacency)"]}
{"id": "C08", "title": "Triangularising keeps exactly the wanted half", "statement": "On a CSR whose row count matches its index array, triangularize<predecessor> (successor) leaves in each row u exactly the entries with target below (above) u, in their old order with their attributes.", "quantifier": "all valid CSRs with N_ = size()", "why_tests_cant": "filtering with index rebuilding over all graphs", "anchors": ["include/nwgraph/containers/compressed.hpp: triangularize_"]}
{"id": "C09", "title": "permute_by_degree is only right when the degree order is an involution", "statement": "For a CSR, permute_by_degree gives index sizes of the degree-sorted order; row i receives the old row of the vertex ranked i when the sorting permutation is its own inverse; otherwise there are graphs where rows are scrambled (a row gets data of the wrong vertex).", "quantifier": "all valid CSRs and all legal sort outcomes; refutation by witness", "why_tests_cant": "a test with an involutive order passes", "anchors": ["include/nwgraph/containers/compressed.hpp: permute_by_degree, sort_by_degree", "include/nwgraph/containers/soa.hpp: permute"]}
{"id": "C10", "title": "Degree vectors are exact and account for every edge", "statement": "degrees on a directed edge list counts exactly the edges with endpoint idx at each vertex and sums to num_edges; on an undirected list it counts both endpoints and sums to 2*num_edges; degrees of a CSR built from the list agree; the atomic increments give the same result under every interleaving.", "quantifier": "all edge lists, all interleavings of the increments", "why_tests_cant": "all schedules of the parallel loop", "anchors": ["include/nwgraph/build.hpp: degrees", "include/nwgraph/containers/compressed.hpp: degrees"]}
{"id": "C11", "title": "perm_by_degree is a degree-sorted permutation", "statement": "perm_by_degree returns a permutation of 0..n-1 along which degrees are non-decreasing (ascending) or non-increasing (descending), for every legal outcome of the sort; an unknown direction returns the identity.", "quantifier": "all degree vectors, all legal sort outcomes", "why_tests_cant": "all orders of ties", "anchors": ["include/nwgraph/build.hpp: perm_by_degree", "include/nwgraph/util/proxysort.hpp"]}
{"id": "C12", "title": "relabel produces an isomorphic edge list", "statement": "relabel(el, perm) with perm a permutation renames both endpoints by the inverse permutation (new id = position in perm), keeping order and attributes; the returned map is a bijection and the new graph is isomorphic to the old; relabel_by_degree yields ids sorted by degree. Bipartite relabel renames only the chosen side.", "quantifier": "all edge lists, all permutations", "why_tests_cant": "bijections on arbitrary vertex sets", "anchors": ["include/nwgraph/build.hpp: relabel, relabel_by_degree"]}
{"id": "C13", "title": "Cleaning pipeline yields a simple triangular edge set", "statement": "swap_to_triangular keeps each edge up to orientation and attributes and makes it point down (up); after a lexical sort, uniq leaves strictly increasing pairs, and remove_self_loops removes exactly the loops; together they yield each non-loop vertex pair joined by an edge exactly once.", "quantifier": "all edge lists, all legal sort outcomes", "why_tests_cant": "duplicates/loops/orientation in any combination", "anchors": ["include/nwgraph/build.hpp: swap_to_triangular, lexical_sort_by, uniq, remove_self_loops"]}
{"id": "C14", "title": "Adjacency lists filled by push_back keep insertion order", "statement": "Filling a vector-of-vectors style graph from an edge list appends to the row of each source exactly its targets with attributes in edge order (and to the row of each target when undirected); an undirected fill has symmetric rows; the graph grows when a source id exceeds its size.", "quantifier": "all edge lists, directed/undirected, idx 0/1", "why_tests_cant": "all orders and growth patterns", "anchors": ["include/nwgraph/build.hpp: push_back_fill(edge_list,adj,directed,idx), fill_adj_list", "include/nwgraph/vovos.hpp: push_back"]}
{"id": "C15", "title": "Graphs from labelled data refer to the right vertices", "statement": "make_plain_graph/make_property_graph/make_index_graph on duplicate-free vertex labels and edges over those labels give exactly the edges between the positions of the labels, and index graphs carry the position of the edge record. A label missing from the vertex list is silently treated as vertex 0.", "quantifier": "all label lists and edge lists", "why_tests_cant": "map semantics over arbitrary labels", "anchors": ["include/nwgraph/build.hpp: make_index_map, make_plain_edges, make_property_edges, make_index_edges, make_plain_graph, make_property_graph, make_index_graph"]}
{"id": "C16", "title": "Bipartite builders and join", "statement": "make_plain_bipartite_graphs returns two mutually transposed graphs; join(G,H) on them links i to every other vertex j sharing a neighbour k, once per shared k; make_bipartite_graph with idx=1 is sized by the left side, so some inputs write out of bounds.", "quantifier": "all bipartite inputs", "why_tests_cant": "transposition and counting over all inputs", "anchors": ["include/nwgraph/build.hpp: data_to_graph_edge_list, make_plain_bipartite_graphs, make_bipartite_graph, join"]}
{"id": "C17", "title": "Binary serialization of edge lists round-trips", "statement": "Deserializing the bytes written by serialize of an edge list (directedness, cardinalities, all columns) restores an equal edge list and consumes exactly those bytes, for any column element sizes; same for array_of_structs; the bytes of an edge list and of a CSR start with their names. A file that lost any number of bytes at its end runs into the end of the file when it is read: no success, no write past a buffer.", "quantifier": "all edge lists with any number of fixed-size attribute columns with fewer than 2^64 entries", "why_tests_cant": "all sizes and byte values", "anchors": ["include/nwgraph/edge_list.hpp: serialize, deserialize", "include/nwgraph/containers/soa.hpp: serialize, deserialize", "include/nwgraph/containers/aos.hpp: serialize, deserialize", "include/nwgraph/graph_base.hpp: serialize, deserialize"]}
{"id": "C18", "title": "Column comparison is only a prefix test", "statement": "a == b on struct_of_arrays/array_of_structs returns true whenever a is a prefix of b, even if sizes differ, and reads out of bounds when b is a proper prefix of a; on equal sizes it is element equality.", "quantifier": "all pairs of containers", "why_tests_cant": "equal-size tests pass", "anchors": ["include/nwgraph/containers/soa.hpp: operator==", "include/nwgraph/containers/aos.hpp: operator=="]}
{"id": "C19", "title": "block() tiles the range", "statement": "The blocks returned for ids 0..n-1 are adjacent, start at 0, end at N, are ordered, and differ in length by at most one.", "quantifier": "all N and n>0", "why_tests_cant": "all pairs (N,n)", "anchors": ["include/nwgraph/util/util.hpp: block"]}
{"id": "C20", "title": "log2, ceil_log2 and pow2 are inverse bounds", "statement": "pow2(log2(v)) <= v < 2*pow2(log2(v)) for every non-zero 64-bit v, and ceil_log2(v) is the least e with v <= 2^e for every non-zero v (32- and 64-bit versions).", "quantifier": "all non-zero machine integers", "why_tests_cant": "2^64 inputs", "anchors": ["include/nwgraph/util/util.hpp: log2, ceil_log2, pow2"]}
{"id": "C21", "title": "Concurrent bit vector sets are lossless and have one winner", "statement": "For any interleaving of concurrent set(i) calls, afterwards get(i) is true exactly for the indices set (plus those set before), and for each index initially clear exactly one of the calls setting it reports that the bit was clear.", "quantifier": "all lengths, all multisets of calls, all interleavings", "why_tests_cant": "all schedules", "anchors": ["include/nwgraph/util/AtomicBitVector.hpp: set, get", "include/nwgraph/util/atomic.hpp: fetch_or"]}
{"id": "C22", "title": "non_zeros enumerates the set bits once, ascending, also when split", "statement": "Iterating non_zeros() yields exactly the indices of set bits in increasing order, and any recursive splitting of the range yields pieces that concatenate to the same sequence.", "quantifier": "all bit vectors, all split trees", "why_tests_cant": "all bit patterns and splits", "anchors": ["include/nwgraph/util/AtomicBitVector.hpp: non_zero_iterator, non_zero_range"]}
{"id": "C23", "title": "intersection_size counts common elements", "statement": "On two ranges sorted by target, intersection_size returns the sum over targets of the smaller multiplicity, hence the size of the set intersection when duplicate-free; it is symmetric.", "quantifier": "all sorted ranges", "why_tests_cant": "all pairs of ranges", "anchors": ["include/nwgraph/util/intersection_size.hpp: intersection_size"]}
{"id": "C24", "title": "Union-find maintains the exact partition", "statement": "Starting from singletons, after any sequence of disjoint_union / disjoint_union_find calls on ids below the size, disjoint_find(u)=disjoint_find(v) iff u and v are connected by the unions performed; every call terminates, stays in bounds, find returns a member of the class; disjoint_union_find returns true iff the classes were different.", "quantifier": "all sizes, all call sequences", "why_tests_cant": "all histories", "anchors": ["include/nwgraph/util/disjoint_set.hpp: disjoint_find, disjoint_union, disjoint_union_find"]}
{"id": "C25", "title": "disjoint_set::find ignores its argument", "statement": "The class's simple find returns the representative of element 0 for every argument, so it is wrong whenever the element is not in 0's set, and unionBySize never merges anything; find_with_pathcompression with combineBySize on roots is correct; so is it with combineByHeight, where the value -(h+1) at a root bounds every path to it by h steps and the size of its class from below by 2^h.", "quantifier": "all states reachable from singletons", "why_tests_cant": "all states", "anchors": ["include/nwgraph/util/disjoint_set.hpp: find, find_with_pathcompression, unionBySize, combineBySize, combineByHeight"]}
{"id": "C26", "title": "Edge-range style adaptors enumerate and split correctly", "statement": "Iterating edge_range(g) yields every (u, v, attributes) of g exactly once in row order skipping empty rows, and any recursive splitting of edge_range, neighbor_range, plain_range and splittable_range_adaptor gives pieces whose concatenation is the original sequence.", "quantifier": "all graphs, all split trees", "why_tests_cant": "all graphs and splits", "anchors": ["include/nwgraph/adaptors/edge_range.hpp", "include/nwgraph/adaptors/neighbor_range.hpp", "include/nwgraph/adaptors/plain_range.hpp", "include/nwgraph/adaptors/splittable_range_adaptor.hpp"]}
{"id": "C27", "title": "Cyclic ranges partition into strided pieces", "statement": "Any recursive splitting of a cyclic range visits every element exactly once over all pieces; size() of each piece equals the number of elements it visits; with cutoff n a full split gives pieces of stride up to 2n, contradicting the documented 'up to n cycles'.", "quantifier": "all ranges, all split trees, all cutoffs", "why_tests_cant": "all splits", "anchors": ["include/nwgraph/adaptors/cyclic_range_adaptor.hpp", "include/nwgraph/adaptors/cyclic_neighbor_range.hpp"]}
{"id": "C28", "title": "vertex_range split duplicates work", "statement": "Splitting vertex_range returns two ranges that both cover the whole range and it claims to be always divisible, so a splitting client never partitions it.", "quantifier": "all ranges", "why_tests_cant": "parallel reductions on it are only wrong when a split happens", "anchors": ["include/nwgraph/adaptors/vertex_range.hpp: vertex_range"]}
{"id": "C29", "title": "Serial BFS returns a breadth-first tree", "statement": "bfs(graph, root) returns parents such that a vertex has a parent iff it is reachable from root, the parent edge is a graph edge, and following parents from v reaches root in exactly dist(root,v) steps; it terminates in bounds.", "quantifier": "all graphs with targets in range, all roots", "why_tests_cant": "all graphs", "anchors": ["include/nwgraph/algorithms/bfs.hpp: bfs(Graph,root)"]}
{"id": "C30", "title": "BFSVerifier accepts exactly the BFS trees", "statement": "Given a graph and its transpose, BFSVerifier returns true exactly for parent vectors that are BFS trees from the source (shortest-path levels, real edges, exactly the reachable vertices).", "quantifier": "all graphs, roots and candidate parent vectors in range", "why_tests_cant": "all wrong candidates", "anchors": ["include/nwgraph/algorithms/bfs.hpp: BFSVerifier"]}
{"id": "C31", "title": "Direction-optimising BFS is correct under every schedule", "statement": "For every thread interleaving and every alpha/beta, the parallel bfs run on a graph and its transpose returns a BFS tree from root.", "quantifier": "all graphs, all switch decisions, all interleavings of CAS/loads/stores at the granularity of atomic operations", "why_tests_cant": "races appear only under rare schedules", "anchors": ["include/nwgraph/algorithms/bfs.hpp: bfs(out_graph,in_graph,root,...)"]}
{"id": "C32", "title": "dijkstra returns shortest distances up to the sentinel", "statement": "dijkstra with non-negative weights terminates and returns, for each vertex, the length of a shortest path from the source when that is below 2^32-1, and 2^32-1 otherwise (unreachable, or farther than that).", "quantifier": "all weighted graphs with non-negative weights, all sources", "why_tests_cant": "all graphs and weights", "anchors": ["include/nwgraph/algorithms/dijkstra.hpp: dijkstra"]}
{"id": "C33", "title": "Sequential delta-stepping returns shortest distances", "statement": "delta_stepping (sequential) with positive delta and non-negative weights terminates and returns exact shortest path lengths, max() for unreachable vertices, independent of delta, if no path sum overflows the distance type.", "quantifier": "all weighted graphs, sources and delta>0", "why_tests_cant": "all graphs/weights/deltas", "anchors": ["include/nwgraph/algorithms/delta_stepping.hpp: delta_stepping (sequential)"]}
{"id": "C34", "title": "delta_stepping_m1 and dijkstra_er are wrong", "statement": "delta_stepping_m1 never relaxes an edge: it returns infinity for every vertex but the source. dijkstra_er ignores its source argument.", "quantifier": "all graphs and sources (m1); witness (er)", "why_tests_cant": "a single-vertex test passes", "anchors": ["include/nwgraph/algorithms/delta_stepping.hpp: delta_stepping_m1", "include/nwgraph/algorithms/dijkstra.hpp: dijkstra_er"]}
{"id": "C35", "title": "link/compress connect components under every interleaving", "statement": "Starting from comp[v]=v, for any set of edges linked concurrently with link, any interleaving of their atomic steps keeps labels in the vertex's component with label <= vertex and, when all links have finished, two vertices have the same root iff connected by linked edges; compress makes labels equal roots.", "quantifier": "all edge sets, all interleavings", "why_tests_cant": "all schedules", "anchors": ["include/nwgraph/algorithms/connected_components.hpp: link, compress"]}
{"id": "C36", "title": "afforest and CCVerifier are off by one", "statement": "afforest reads graph[num_vertices] for every graph with consistent size; CCVerifier rejects every labelling of every consistent graph because its visited vector has an extra never-visited slot.", "quantifier": "all graphs, all labellings", "why_tests_cant": "with the over-long CSR range the errors mask each other", "anchors": ["include/nwgraph/algorithms/connected_components.hpp: afforest, CCVerifier"]}
{"id": "C37", "title": "Triangle counting is exact; threaded versions need upper triangular input", "statement": "On an upper or lower triangular simple graph with sorted rows, sequential triangle_count returns the number of vertex triples pairwise joined by edges. On upper triangular graphs the multi-threaded version returns the same for every thread count >= 1; on lower triangular graphs it returns 0 for every graph and thread count; with 0 threads the answer is 0.", "quantifier": "all triangular simple graphs, all thread counts", "why_tests_cant": "all graphs and thread counts", "anchors": ["include/nwgraph/algorithms/triangle_count.hpp: triangle_count"]}
{"id": "C38", "title": "Kruskal returns a minimum spanning forest", "statement": "If every vertex id is below the number of edges, kruskal returns a subset of the input edges that is acyclic, connects exactly what the input connects, and has least total weight among such subsets. If some id is >= number of edges (every tree), it indexes out of bounds. With a comparison given by the caller that orders the edges by any measure, the forest is one of least total measure (of greatest weight if the heavier edge comes first).", "quantifier": "all weighted edge lists, all legal sort outcomes", "why_tests_cant": "minimality over all spanning forests", "anchors": ["include/nwgraph/algorithms/kruskal.hpp:38-73"]}
{"id": "C39", "title": "Greedy maximal independent set", "statement": "On a symmetric loop-free graph, maximal_independent_set marks an independent set that is maximal; on graphs storing one direction only there are inputs where the result is not independent. On any graph the set is maximal and an arc inside it leads to a smaller id or to its own start; so with only arcs to larger ids it is a maximal independent set too.", "quantifier": "all symmetric loop-free graphs", "why_tests_cant": "all graphs", "anchors": ["include/nwgraph/algorithms/maximal_independent_set.hpp"]}
{"id": "C40", "title": "dag_range is a topological traversal of edges", "statement": "Iterating dag_range over an acyclic graph with matching predecessor and successor graphs yields every edge exactly once, and an edge (u,v) only after all edges into u; dag_based_mis started with all true yields a maximal independent set.", "quantifier": "all DAGs", "why_tests_cant": "all DAGs", "anchors": ["include/nwgraph/adaptors/dag_range.hpp", "include/nwgraph/algorithms/dag_based_mis.hpp"]}
{"id": "C41", "title": "jones_plassmann colouring is not proper; the gap finder is right", "statement": "firstMissingPositive returns the least positive integer not in the array for every array; jones_plassmann_coloring can give adjacent vertices the same colour.", "quantifier": "all integer arrays; witness for colouring", "why_tests_cant": "all arrays", "anchors": ["include/nwgraph/algorithms/jones_plassmann_coloring.hpp"]}
{"id": "C42", "title": "Sparse matrix products are exact", "statement": "spMatspMat(A,B) lists exactly the structurally non-zero coordinates of A*B once each in row-major order with value sum_k A(i,k)B(k,j); spMatspMatT on sorted duplicate-free rows gives A*B^T.", "quantifier": "all sparse matrices over integers", "why_tests_cant": "all matrices", "anchors": ["include/nwgraph/algorithms/spMatspMat.hpp: spMatspMat, spMatspMatT, set_ewise_intersection"]}
{"id": "C43", "title": "Top-down BFS ranges enumerate the reachable part in level order", "statement": "topdown_bfs_range yields each vertex reachable from the seed exactly once, seed first, with non-decreasing distance from the seed. bottomup_bfs_range is not a breadth-first search: it yields every vertex in the cyclic order seed, seed+1, ..., each paired with its first neighbour yielded earlier, or itself if it has no neighbour, or - if it has neighbours but none was yielded yet - the parent of the previous vertex, which need not be a neighbour.", "quantifier": "all graphs and seeds", "why_tests_cant": "all graphs", "anchors": ["include/nwgraph/adaptors/bfs_range.hpp"]}
{"id": "C44", "title": "BFS edge ranges enumerate a BFS tree", "statement": "bfs_edge_range3, and bfs_edge_range from a seed that has a neighbour, yield exactly the edges of one BFS tree in level order; bfs_edge_range yields the self loop of the seed first if the seed is its own first neighbour, and dereferences past the end on an isolated seed; bfs_edge_range3 yields the single pair (seed, seed) when nothing else is reachable.", "quantifier": "all graphs and seeds", "why_tests_cant": "all graphs", "anchors": ["include/nwgraph/adaptors/bfs_edge_range.hpp"]}
{"id": "C45", "title": "Matrix Market text round-trips", "statement": "write_mm of a directed edge list as general followed by read_mm into the same kind of list restores the vertex count, the edges in order and their integer attributes (or 1 / nothing when no value column is written; 1 also if the file announces integers and has no value column); an undirected list written as symmetric round-trips likewise; an undirected list written as general (the default) comes back with every edge followed by its reverse; any list written as symmetric and read as directed comes back mirrored; adjacency<0> comes back as its arcs row by row, adjacency<1> with every id one too small (0 becomes the largest id); a biadjacency round-trips when its two sides differ in size and its file is rejected when they are equal; a line whose first id is 2^64 or more makes the reader use an unset value, one whose second id is gets an edge to 2^64 - 1. Negative ids are taken modulo 2^64.", "quantifier": "all edge lists and adjacencies with integer attributes in the range of their type, all id types whose width divides 2^64, all sizes representable in size_t", "why_tests_cant": "parsing and printing over all numbers and all lengths", "anchors": ["include/nwgraph/io/mmio.hpp"]}
{"id": "C46", "title": "fetch_add by CAS loop loses nothing", "statement": "For any interleaving of concurrent fetch_add calls (CAS loop for non-integral types), the final value is the initial plus all addends, and every call returns the value just before its own addition.", "quantifier": "all numbers of threads, addends and interleavings, including spurious CAS failure", "why_tests_cant": "all schedules", "anchors": ["include/nwgraph/util/atomic.hpp: fetch_add"]}
{"id": "C47", "title": "random walk and path ranges stay on edges", "statement": "random_range yields, for every outcome of the dice, exactly the requested number of vertices beginning with the given one, each next vertex a neighbour of the one before, provided every vertex reachable from the start has a neighbour; every walk whose last vertex has a neighbour can come out. At a vertex without neighbours (also after the last vertex, where one step too many is made) it moves to the first neighbour of the next non-empty row, or reads beyond the arcs. reverse_path yields the chain of predecessors from start up to but not including stop (on a breadth-first tree: one vertex of each distance d..1, joined by arcs), yields nothing on a second loop, and never ends when the chain misses stop.", "quantifier": "all graphs, all random choices, all lengths; all predecessor arrays", "why_tests_cant": "all random outcomes", "anchors": ["include/nwgraph/adaptors/random_range.hpp", "include/nwgraph/adaptors/reverse.hpp"]}
{"id": "C48", "title": "Brandes betweenness centrality is exact (and what the parallel version and the verifier count)", "statement": "Let sigma_st be the number of shortest paths from s to t and sigma_st(v) of those visiting v, counted over an explicit enumeration of walks (parallel arcs give distinct paths). Sequential brandes_bc gives each v the sum over sources s != v and targets t != v of sigma_st(v)/sigma_st; normalised, these divided by their maximum, with no result (0/0, or end() dereferenced) exactly when all are 0 or the graph is empty. Parallel brandes_bc, for every schedule of its tasks and atomic accesses, gives each v the same sum over the given sources including v itself; with an integral accum_t it gives instead the number of targets t such that every shortest path to t visits v and sigma_st = sigma_sv; on a graph without arcs it reads the first arc all the same. BCVerifier returns true iff every tested score is within 1e-6 (integral accum_t: within 1, exclusively) of the sum that includes the source; so it accepts the parallel result and rejects the exact sequential result on every graph with an arc between two different vertices.", "quantifier": "all graphs with targets in range, all lists of sources, all schedules, path counts below the modulus of accum_t, exact rational scores", "why_tests_cant": "all graphs and all interleavings; shortest-path counts grow exponentially", "anchors": ["include/nwgraph/algorithms/betweenness_centrality.hpp:43-362"]}
{"id": "C49", "title": "k_core accounts for the edges it removes but does not compute k-cores", "statement": "k_core ends on every graph. When it returns (filter, n), the removed pairs are distinct, each was removed while one of its ends had fewer than k arcs left, and n is exactly the number of vertices with no incoming arc or with more incoming arcs than removed pair ends. On a simple undirected graph where only edges were removed, no edge of the k-core is removed and every k-core vertex is counted. But isolated vertices are always counted, arcless graphs and stars centred at 0 read past the arcs, and on connected simple graphs n may be smaller than the k-core (the walk leaves its rows and removes edges of the core) or larger (one walk does not revisit).", "quantifier": "all graphs, all k, assertions on or off", "why_tests_cant": "the repository's k-core test uses one graph; the wrong answers depend on the order of ids", "anchors": ["include/nwgraph/algorithms/k_core.hpp", "include/nwgraph/adaptors/new_dfs_range.hpp"]}
{"id": "C50", "title": "jaccard assigns each upward edge its similarity", "statement": "On a graph with sorted rows, jaccard gives each stored edge (u,v) with u < v the size of the intersection over the size of the union of the stored neighbour rows of u and v, leaves every other edge as it was and returns the number of edges assigned; so on a lower-triangular graph it changes nothing and returns 0.", "quantifier": "all graphs with sorted rows", "why_tests_cant": "all graphs", "anchors": ["include/nwgraph/algorithms/jaccard.hpp"]}
{"id": "C51", "title": "CSR serialization transfers size_t bytes through an index_t field", "statement": "indexed_struct_of_arrays::serialize/deserialize round-trip when index_t has sizeof(size_t) bytes; for every narrower index_t (the uint32_t default) both functions access memory beyond the field N_, on every input. A file that lost any number of bytes at its end runs into the end of the file when it is read: no success, no write past a buffer.", "quantifier": "all index sizes, all stored structures, all input streams long enough to hold the header", "why_tests_cant": "the overrun lands in an adjacent member and is invisible unless a sanitizer is used; the round trip ranges over all byte contents", "anchors": ["include/nwgraph/containers/compressed.hpp: serialize, deserialize"]}
{"id": "C52", "title": "afforest, its array size apart, labels connected components", "statement": "Given a label array of the graph's size (the code allocates one element more), afforest returns for every vertex the least vertex of its connected component, for every schedule of every parallel loop, every label the sampling may return and every number of neighbour rounds, provided the graph is symmetric or its transpose is given; with a directed graph and no transpose it may return a wrong labelling.", "quantifier": "all graphs, schedules, sampled labels, round counts", "why_tests_cant": "all interleavings and all sampled labels", "anchors": ["include/nwgraph/algorithms/connected_components.hpp: afforest, link, compress, sample_frequent_element"]}
{"id": "C53", "title": "CCVerifier, its array size apart, accepts exactly the right labellings", "statement": "Given a visited vector of the graph's size (the code allocates one element more), CCVerifier accepts a labelling iff two vertices have the same label exactly when they are connected, whatever the iteration order of the hash map, provided every arc can be followed both ways in the two graphs; with a directed graph and no transpose it may reject a right labelling.", "quantifier": "all graphs, labellings, map orders", "why_tests_cant": "all labellings and map orders", "anchors": ["include/nwgraph/algorithms/connected_components.hpp: CCVerifier"]}
{"id": "C54", "title": "Union-find trees stay logarithmic, except through disjoint_union", "statement": "After any sequence of disjoint_find and disjoint_union_find calls, an element k parent steps from its root lies in a class of at least 2^k elements (so k <= log2 n). disjoint_find redirects exactly one entry, that of the argument's parent, to the root. disjoint_union also bumps the rank when both arguments are in one class, and for every n there are calls of it after which one path runs through all n elements.", "quantifier": "all sizes, all call sequences", "why_tests_cant": "all histories; the bound is about every reachable tree", "anchors": ["include/nwgraph/util/disjoint_set.hpp: disjoint_find, disjoint_union, disjoint_union_find"]}
{"id": "C55", "title": "dijkstra's queue order makes it exponential", "statement": "The priority queue of dijkstra orders its tuples by vertex id before distance. For every k there is a graph with 2k+1 vertices, 3k arcs and weights at most 2^k on which the while loop makes exactly 3*2^k - 2 iterations before it ends with the right distances.", "quantifier": "all k (as long as 2^k fits the sentinel and the distance type)", "why_tests_cant": "a statement about a family of graphs of every size; tests see only slowness", "anchors": ["include/nwgraph/algorithms/dijkstra.hpp: dijkstra"]}
{"id": "C56", "title": "Depth-first ranges: dfs_edge_range is a depth-first search, dfs_range never ends", "statement": "For every graph without self loops and every seed with a neighbour, dfs_edge_range yields exactly the tree edges of the depth-first search in discovery order: each edge starts at the latest discovered vertex that still has an undiscovered target and goes to the first such target of its row; this determines the list, which spans exactly the reachable vertices, and every arc of the graph leads to an earlier vertex or to a descendant of its source. With self loops (assertions off) the list is the same once the yielded self loops are dropped. A seed without neighbours is an out-of-bounds read. dfs_range yields the post-order of the recursive search from the seed and then from 1, 2, ... (0 is not used as a root), then reads out of bounds on an ordinary graph, or ends if the graph has one position more than vertices; a root with an empty row is yielded for ever. A loop over dfs_range never reaches its end when end()-begin() is the number of vertices (out-of-bounds read or endless), and from an isolated seed it is endless.", "quantifier": "all row lists with targets in range, all seeds, assertions on or off", "why_tests_cant": "The order of discovery and the ancestor property concern all graphs; that no run of dfs_range ends is a statement about every graph and every number of steps.", "anchors": ["include/nwgraph/adaptors/dfs_range.hpp"]}
{"id": "C57", "title": "Parallel delta_stepping: right when the unset flag reads false, undefined on every reachable cycle", "statement": "relax() reads a bool that was never assigned when the arc does not improve its target. For every graph without distance overflow, every delta > 0 and every interleaving of the two nested parallel loops: (1) if that read gives false the result is the map of shortest distances, equal to the sequential version's; (2) whatever the reads give, a run that returns returns the shortest distances; (3) if the read is undefined behaviour, as the standard says, every run is undefined whenever a cycle is reachable from the source; (4) if it reads true, a two-arc cycle through the source of total weight below delta makes every run endless.", "quantifier": "all graphs, sources, deltas, schedules of the atomic accesses, values of the indeterminate reads", "why_tests_cant": "All interleavings and all values of an indeterminate read are covered; a test sees one schedule and whatever the stack happens to hold.", "anchors": ["include/nwgraph/algorithms/delta_stepping.hpp:172-224", "include/nwgraph/util/atomic.hpp", "include/nwgraph/util/parallel_for.hpp"]}
{"id": "C58", "title": "page_rank approaches the unique PageRank vector under every interleaving", "statement": "For every graph given by rows of in-neighbours, every degree table that counts at least the occurrences of each vertex, 0 <= d < 1, and every interleaving of the unsynchronised updates in each sweep: (1) x_i = (1-d)/n + d * sum over row i of x_j/deg_j has exactly one solution x, with (1-d)/n <= x_i <= 1 and total at most 1; (2) the run is defined and leaves finite scores after at most max_iters sweeps; (3) if it stops by the threshold, the scores satisfy the equations up to d*threshold in total and are within d*threshold/(1-d) of x; (4) after k sweeps each score is within (1-(1-d)/n)^k/(1-d) * x_i of x_i; (5) with a positive threshold it stops by the test after a number of sweeps bounded independently of the schedule; (6) the total of x is 1 if every vertex has outgoing arcs, and at most 1 - d*t/n with t vertices without any; (7) a zero degree of a vertex that occurs in a row makes scores non-finite and the test fail in every sweep; (8) short vectors and targets out of range are undefined behaviour. Elements of the caller's vector behind the last vertex keep their values.", "quantifier": "all graphs, degree tables, damping factors, thresholds, iteration limits, schedules", "why_tests_cant": "The scores depend on the interleaving, so a test compares with one of infinitely many possible results; the bounds hold for all of them and for all graph sizes.", "anchors": ["include/nwgraph/algorithms/page_rank.hpp:89-148"]}
{"id": "C59", "title": "The filtered breadth-first range finds a shortest path of arcs that pass the filter", "statement": "For every graph with targets in range, every filter (a predicate on the arcs), every source with at least one arc and every target: the loop over filtered_bfs_edge_range ends; found() afterwards is true exactly when the target can be reached from the source by arcs for which the filter answers false; with source = target nothing is yielded; otherwise what is yielded is a beginning of a breadth-first tree of the graph of those arcs, in level order, which ends with the arc that discovers the target, or is the whole tree if the target is not reachable, so that the arcs yielded hold a shortest path to a reachable target. If the source's first arc that passes is a self loop it is yielded first, and with assertions enabled the search is then undefined unless the target is a neighbour of the source. A source without arcs is undefined behaviour.", "quantifier": "all graphs, filters, sources and targets", "why_tests_cant": "The filter is an arbitrary predicate and the property is about reachability in the graph it leaves; a test fixes one graph and one filter, and cannot show that no shorter path passes.", "anchors": ["include/nwgraph/adaptors/filtered_bfs_range.hpp:31-146"]}
{"id": "C60", "title": "back_edge_range: get_back_edge names an arc back, but iteration sees a different copy of the missing ones", "statement": "For every graph with targets in range and every history of calls and of assignments through the references obtained: the constructor leaves the graph unchanged; in eager mode get_back_edge(u, v) names the first arc from v to u, or, if there is none but an arc from u to v, an extra arc with target u, and is undefined if there is no arc in either direction; in as-needed mode the same holds for an arc from u to v, and for the opposite direction only after a call for the arc itself; no call changes an arc that could be read before, and extra arcs start with attribute 0; iterating over row v in eager mode visits the arcs of the graph, then one extra arc for every u (ascending) with an arc to v but none from v, and get_back_edge of every arc visited points to v. The extra arc visited by the iteration is a different object from the one that get_back_edge names: an assignment through the latter is never seen by the iteration.", "quantifier": "all graphs, attribute values, modes, histories of calls and assignments", "why_tests_cant": "The test only looks at targets in a fresh range over one graph; that the two copies diverge shows after assignments, and the reference-valued map (whose insert_or_assign would assign through) needs an argument for all orders of calls.", "anchors": ["include/nwgraph/adaptors/back_edge_range.hpp:29-223", "test/back_edge_test.cpp"]}
{"id": "C61", "title": "The hooking component algorithms label every vertex with the least vertex of its component under every interleaving", "statement": "For every graph with fewer vertices than the id type has values, targets in range and every interleaving of the parallel loops: ccv1 and compute_connected_components_v2 end with each vertex labelled by the least vertex of its component (arcs counting in both directions); ccv5 does so for symmetric graphs and Afforest for symmetric graphs or graphs given with their transpose, whatever label is sampled; without symmetry ccv5 joins nothing when only vertex 0 has arcs and its label is sampled. compute_connected_components_v1 gives each vertex a label of its own component that is not above it, but stops after two passes: on a symmetric connected graph of 6 vertices the sequential execution leaves two labels. With exactly as many vertices as the id type has values, every one of them labels all vertices 0.", "quantifier": "all graphs, id widths, sampled labels and interleavings", "why_tests_cant": "The header has no test; hooks race through unsynchronised compare-and-swap loops, so a run shows one interleaving of many, and the wraparound of the loop end needs 2^32 vertices.", "anchors": ["include/nwgraph/experimental/algorithms/connected_components.hpp:92-304", "include/nwgraph/experimental/algorithms/connected_components.hpp:430-470"]}
{"id": "C62", "title": "The Shiloach-Vishkin versions find the components despite their check-then-store race", "statement": "For every graph with fewer vertices than the id type has values, targets in range, and every interleaving of every iteration: sv_v6, sv_v8 and, for every division of the arcs among the tasks, sv_v9 end within |V| iterations with each vertex labelled by the least vertex of its component, although a root is tested and overwritten in separate steps so that a hook can be lost. With as many vertices as the id type has values the sequential loop over the vertices never ends.", "quantifier": "all graphs, divisions of the arcs, id widths and interleavings", "why_tests_cant": "The header has no test, the lost hooks depend on the interleaving, and the bound of |V| iterations is only known to suffice by an argument that every changing iteration removes a root.", "anchors": ["include/nwgraph/experimental/algorithms/connected_components.hpp:472-599"]}
{"id": "C63", "title": "Label propagation labels every vertex with the least vertex that reaches it", "statement": "For every graph with fewer vertices than the id type has values and targets in range, every division of the work by the scheduler among workers whose index is below num_bins, and every interleaving: lpcc and lpcc_cyclic end, with each vertex labelled by the least vertex from which it can be reached (hence, for symmetric graphs, both return the least vertex of each component), although writeMin retries, frontiers are per worker and a vertex may be relabelled while it is being processed. No vertex is twice in a frontier. With as many vertices as the id type has values all labels are 0. Workers whose index is not below num_bins (32 unless given) never make a label wrong: the run gives the same labels or is undefined; and it is undefined under every interleaving if some vertex y has an arc from a smaller vertex and in the first round the workers that have a frontier get no vertex with an arc to y.", "quantifier": "all graphs, divisions of the work, workers, id widths and interleavings", "why_tests_cant": "The header has no test; which vertices are in which frontier depends on the interleaving of compare-and-swap, bitmap and pushes, and a lost update would show only in rare schedules.", "anchors": ["include/nwgraph/experimental/algorithms/connected_components.hpp:40-48", "include/nwgraph/experimental/algorithms/connected_components.hpp:306-427"]}
{"id": "C64", "title": "A Matrix Market file read in pieces gives every line once", "statement": "For every well-formed coordinate file (banner in any case, comments, sizes, lines of two or three integers ended by a newline) MatrixMarketFile opens it with the right sizes and type, and for every sequence 0 <= j1 <= ... <= nnz the ranges edges(mm, j, j') between consecutive numbers, concatenated, give the lines of the file each exactly once and in order, however the double arithmetic of at() rounds as long as it is monotone and stays in the body. The iterator reads a blank line as the next line (twice read); if the sizes are preceded by a blank or unreadable line or by a comment of 1024 or more characters, the first edge is read twice; if then no number follows, the constructor does not end; without a newline at the end of the file reading to the end is undefined; sizes that do not fit in an int are undefined behaviour of the constructor. isPattern and isSymmetric answer whether the fourth word of the banner is pattern and the fifth symmetric, in any case. A file of pairs read with an integer attribute gives every edge the first number of the next line as its value, and the last edge 0.", "quantifier": "all files of the described form, all divisions into pieces, all monotone roundings", "why_tests_cant": "No test uses the class; where a piece starts depends on byte offsets of the particular file and number of pieces, and the failing files are unusual ones.", "anchors": ["include/nwgraph/io/MatrixMarketFile.hpp:43-199", "include/nwgraph/io/mmio_nist.h:184-297"]}
{"id": "C65", "title": "The experimental bfs variants build breadth-first trees under every schedule", "statement": "For every graph, every root and every interleaving of the shared accesses, bfs_v6, bfs_v7, bfs_v8, bfs_v9, bfs_top_down and bfs_top_down_bitmap return a breadth-first tree: the root is its own parent, every reachable vertex has as parent a vertex one level nearer along an edge, all others have none. bfs_bottom_up does so exactly when no level has more vertices than an int can count, and is undefined otherwise. bfs_v1 does so whatever its uninitialised bitmap holds, provided every worker number is below the number of local queues; past it the first top-down level of v1 and v2 never completes. bfs_v2 does so if its uninitialised bitmap holds no bit besides the root's; otherwise, when the search starts bottom-up, every successor of a garbage vertex gets a parent, reachable or not. flush concatenates the local queues in order and empties them.", "quantifier": "all graphs with their transposes, all roots, all schedules, all assignments of vertices to workers, all contents of the uninitialised bitmap", "why_tests_cant": "The races (two tasks discovering one vertex between test and store) and the contents of uninitialised memory are not under a test's control, and no test calls these functions.", "anchors": ["include/nwgraph/experimental/algorithms/bfs.hpp:70-603", "include/nwgraph/util/AtomicBitVector.hpp:55-62"]}
{"id": "C66", "title": "The experimental triangle counting variants agree with the definition, except where the rest of the row, a double or &v[size] is used", "statement": "On every upper or lower triangular graph with sorted duplicate-free rows, triangle_count_v2, v3, v6, v10, v13, v14, v15, vc and edgesplit return the number of vertex triples pairwise joined by an edge, for every positive number of threads, every schedule of the parallel loops and every splitting of the ranges; v1, v4, v5, v7, v12 and edgesplit_upper do so on upper triangular graphs and return 0 on every lower triangular one. With 0 threads the threaded variants return 0. v12 and v13 reduce in a double: exact below 2^53 triangles, while an odd count of at least 2^53 is never returned. Read strictly, triangle_count_vc has undefined behaviour on every graph with an arc (it forms &idxs[idxs.size()]). On a graph storing both arcs of every edge the whole-row variants return six times the number of triangles.", "quantifier": "all graphs with sorted rows, all thread counts, all schedules, all splittings of the edge and cyclic ranges", "why_tests_cant": "The tests run one 34-vertex upper triangular graph; they cannot enumerate schedules, splittings, empty leading rows and thread counts above the number of edges, nor reach 2^53 triangles.", "anchors": ["include/nwgraph/experimental/algorithms/triangle_count.hpp:37-467", "include/nwgraph/containers/compressed.hpp:223-231"]}
{"id": "C67", "title": "parallel_for applies the operator once per element; parallel_reduce is the sequential reduction only if init is an identity", "statement": "For every edge range and every associative reduction with identity init, parallel_reduce returns the reduction of the operator's values over the edges in order, however the range is split and whichever parts are taken over by other bodies. With another initial value and addition the result is the sum plus init times one more than the number of bodies split off, when the range has more than 16 rows; over a cyclic range always. parallel_for hands every element of an edge range or a cyclic range to the operator exactly once in every interleaving, in order when the range does not divide.", "quantifier": "all graphs, offsets, operators, reductions, splittings, stealings and interleavings", "why_tests_cant": "Splitting and stealing are decided by the scheduler; a test sees one outcome.", "anchors": ["include/nwgraph/util/parallel_for.hpp:56-134"]}
{"id": "C68", "title": "The experimental delta-stepping versions", "statement": "Under every schedule and every way TBB may cut the loops, delta_stepping_v9, v10 and v11 return the shortest distances whenever they return, and do return when the bool they forget to initialise reads false; by the standard that read is undefined, and it is unavoidable on every graph with a cycle reachable from the source. delta_stepping_v8 initialises its flag and always returns the shortest distances. delta_stepping_v6, with plain distances and an unsynchronised resize, is the sequential version on one thread; on several, every finite label is still the length of a walk, but labels can be too large, reachable vertices can be missed and a bin can be used after it was dropped.", "quantifier": "all graphs with targets in range and no overflow along simple paths, all sources, positive deltas, schedules, splittings of the frontier and of the rows, values read from the unset flag", "why_tests_cant": "The wrong results need particular interleavings of two relaxations or two resizes; the correct ones must hold of all interleavings and all work splittings.", "anchors": ["include/nwgraph/experimental/algorithms/delta_stepping.hpp:45-332"]}
{"id": "C69", "title": "The experimental PageRank versions", "statement": "page_rank_v1, vc, v4, v6, v7, v8, v9 and v10 return the vector of the power iteration at the first iteration that moves it by less than the threshold (or after max_iters), whatever the threads, splittings, bracketings and schedules; its total error after k iterations is at most 2 d^k and, when the test passed, at most d thr/(1-d). page_rank_v2 performs Gauss-Seidel sweeps from zero, never exceeds the solution, and its test bounds the error too. page_rank_v14 returns the iteration that passed the test. Wrong behaviour: v4 with no threads accepts the initial vector; v1, v4, v7-v9 read past the graph when the score array is longer; v12 with a threshold of at least 1/n gives (1-d)/n to every vertex, a total error of exactly d when all vertices have outgoing arcs; v3 and v13 return scores that approximate n times the solution, from below, and all zeros when the threshold is at least 1-d.", "quantifier": "all graphs with targets in range, degrees at least the number of contributions, damping factors in [0,1), thresholds, iteration limits, numbers of threads, work splittings, bracketings and schedules", "why_tests_cant": "The equality must hold of every interleaving, splitting and bracketing, and the error bounds are over all graphs and all numbers of iterations.", "anchors": ["include/nwgraph/experimental/algorithms/page_rank.hpp:93-735"]}
{"id": "C70", "title": "The experimental betweenness versions", "statement": "approx_betweenness_brandes, bc2_v0, bc2_v1, bc2_v3 and bc2_v4 give every vertex the sum, over the sources, of its exact dependency (the sum over all targets of the fraction of shortest paths that visit it), under every schedule for the parallel v3 and v4; v0, v3 and v4 count what a source gives itself, approx and v1 do not; normalised, the scores are divided by the largest, and when all scores are 0 the division 0/0 is computed. v4 with an integral type truncates the quotients. bc2_v2 counts paths in a plain vector: it is exact under every schedule when no vertex has two shortest paths from a source, and for every graph when the forward tasks run one after the other, but some schedules lose an addition and give wrong scores. v4 reads the first arc of a graph that has none.", "quantifier": "all graphs with targets in range, all lists of sources, all schedules of both phases, all numbers of bins, path counts below the range of the counting type", "why_tests_cant": "Exactness is over all graphs (parallel arcs, cycles, several shortest paths) and all interleavings of the level loops; the lost update of v2 needs two tasks between the read and the write of the same count.", "anchors": ["include/nwgraph/experimental/algorithms/betweenness_centrality.hpp:69-124", "include/nwgraph/experimental/algorithms/betweenness_centrality.hpp:1231-1633"]}
{"id": "C71", "title": "The serial worklist betweenness", "statement": "approx_betweenness_worklist_serial gives every vertex the sum, over the sources other than itself, of its exact dependency in the graph without its parallel arcs, divided by the largest such sum (0/0 is computed when all are 0), whatever the iteration order of its hash sets. Parallel arcs count once, unlike in approx_betweenness_brandes.", "quantifier": "all graphs with targets in range (parallel arcs, self-loops, cycles), all lists of sources in range, all iteration orders of the sets, path counts below the range of the counting type", "why_tests_cant": "The algorithm relaxes arcs in worklist order with corrections to earlier work; that no item is lost and no correction is needed or missed holds for all graphs and all set orders only by an invariant on the worklist.", "anchors": ["include/nwgraph/experimental/algorithms/betweenness_centrality.hpp:126-291", "include/nwgraph/adaptors/worklist.hpp:33-80"]}
{"id": "C72", "title": "The parallel worklist betweenness", "statement": "approx_betweenness_worklist is wrong in ways that do not depend on the schedule: with num_threads = 0 every score is 0; the last item taken from a worklist is dropped, so when every source has at most one out-arc every score is 0 for any number of threads and any schedule; with one thread, a source other than vertex 0 whose row starts with a self-loop and goes on waits for a lock it holds and never ends. The bucket loop of approx_betweenness_worklist_noabstraction reads one bucket past the end before it stops, for every graph, source and order of the items.", "quantifier": "all graphs, all lists of sources, all schedules and iteration orders, all DELTA and numbers of buckets; any body of the bucket loop", "why_tests_cant": "The dropped item is a property of every interleaving of the iterators; the read past the end goes unnoticed in a test because the memory behind the last bucket usually reads as an empty bucket.", "anchors": ["include/nwgraph/experimental/algorithms/betweenness_centrality.hpp:293-617", "include/nwgraph/experimental/algorithms/betweenness_centrality.hpp:619-847", "include/nwgraph/adaptors/worklist.hpp:83-250"]}
{"id": "C73", "title": "Boykov-Kolmogorov maximum flow", "statement": "bk_maxflow always ends without undefined behaviour and returns the value of a feasible flow offset by the sum of the negative vertex capacities, so it never exceeds the capacity of any cut. It is not always a maximum flow, and the returned labels are not always a minimum cut: the residual arcs tested when an orphan is released (lines 308, 310) are the wrong way round. With these two exchanged, the value is that of a maximum flow and the labels are a minimum cut.", "quantifier": "all symmetric graphs without loops or repeated arcs, all non-negative integer arc capacities, all integer vertex capacities, all values of INFINITE_D", "why_tests_cant": "The trees are repaired through timestamps and distance labels whose staleness depends on the whole history; small random graphs almost always give the right value, and the smallest wrong value found needs a dozen vertices.", "anchors": ["include/nwgraph/algorithms/boykov_kolmogorov.hpp:43-342", "include/nwgraph/adaptors/back_edge_range.hpp"]}
{"id": "C74", "title": "max_flow", "statement": "On a network without loops, repeated arcs or negative capacities that holds a flow, max_flow ends without undefined behaviour, changes only the flows, and leaves a flow whose value has grown by the returned number. The flow is maximum (a cut has its value) if max_iters is at least the number of units that some cut still allows, or at least arcs * (vertices + 1) + q where less than 100000 * (q + 1) more units are allowed. As a round sends at most 100000 units, the result is too small where more than 100000 * (max_iters + 1) can be sent. A source that no arc touches is undefined behaviour, source = sink never gives a result, and with repeated arcs the flow need not be maximum.", "quantifier": "all networks (rows without loops and repeated arcs, integer capacities >= 0), all initial flows, all sources and sinks, all max_iters, debug and release builds", "why_tests_cant": "Maximality compares with all flows; the round limit and the 100000 cap only show on large capacities, and the loss with repeated arcs needs a path that takes flow back through the second copy of an arc.", "anchors": ["include/nwgraph/algorithms/max_flow.hpp:28-111", "include/nwgraph/adaptors/back_edge_range.hpp", "include/nwgraph/adaptors/filtered_bfs_range.hpp", "include/nwgraph/adaptors/reverse.hpp"]}
{"id": "C75", "title": "jones_plassmann_coloring2", "statement": "On a non-empty graph without loops whose colour vector is long enough, the experimental jones_plassmann_coloring2 gives each vertex either 0 or the number of arcs it has with earlier vertices (larger degree, then smaller number), the latter exactly when the earlier neighbours already use every smaller colour. So a graph that stores both arcs of each edge gets colour 0 everywhere, which is not proper if it has an edge; a vertex with two arcs to earlier vertices that have none themselves shares their colour; a graph where every vertex has at most one such arc is coloured properly with two colours. The empty graph is undefined behaviour.", "quantifier": "all graphs with valid targets and without loops, all initial contents of the colour vector", "why_tests_cant": "The claim is about every graph and pins down the exact wrong colour; a test on a star or path passes.", "anchors": ["include/nwgraph/experimental/algorithms/jones_plassmann_coloring.hpp:37-144", "include/nwgraph/adaptors/dag_range.hpp"]}
{"id": "C76", "title": "The triangle counting benchmark", "statement": "For an undirected edge list (loops, repeated and reversed edges allowed), bench/tc.cpp's preparation (degrees, optional relabelling by degree, cleaning) and each of the three graph formats give one half of the described simple graph up to a renaming of the vertices (the identity without --relabel, by degree when relabelling is forced), and every version 0-14 reports the number of triangles of that simple graph, for every number of threads, schedule and splitting (versions 12 and 13: below 2^53). With --lower the whole-row versions are still exact and versions 1, 4, 5, 7, 8, 9, 12 report 0. TCVerifier is undefined exactly when there is a triangle; if the reserved memory may be written it returns the count. The heuristic is undefined without vertices.", "quantifier": "all edge lists with ids below the id type's range, all options, formats, versions, thread counts > 0, schedules, range splittings, all legal sorts, all numbers drawn by the heuristic", "why_tests_cant": "The result is compared with the definition for every input and schedule, through five transformations of the data.", "anchors": ["bench/tc.cpp:61-127", "bench/tc.cpp:198-319", "include/nwgraph/build.hpp:58-96", "include/nwgraph/build.hpp:384-443", "include/nwgraph/algorithms/triangle_count.hpp", "include/nwgraph/experimental/algorithms/triangle_count.hpp"]}
{"id": "C77", "title": "The shortest path benchmark", "statement": "bench/sssp.cpp's dijkstra, whatever order its queue hands the vertices out in, terminates with the shortest distances cut at its initial value max/4 (as long as no sum of a label and a weight wraps). Its queue breaks the preconditions of push_heap and pop_heap (a comparator over changing distances), and where they are checked an answer is still right. SSSPVerifier accepts an answer with one entry per vertex exactly if it is that list; it accepts proper prefixes and reads out of range for longer answers. Version 0 (delta_stepping) passes exactly if every vertex is reachable from the source, version 1 never passes on more than one vertex, version 13 and unknown versions always pass. main reads the first trials * iterations sources, and out of range if there are fewer, as with -r and more than one iteration.", "quantifier": "all weighted graphs, sources, answers, queue orders, implementations of the heap operations, numbers of trials and iterations", "why_tests_cant": "The claim is over all queue orders and all graphs; a test sees one heap implementation and cannot see that its precondition is broken.", "anchors": ["bench/sssp.cpp:55-114", "bench/sssp.cpp:119-145", "bench/sssp.cpp:180-210", "include/nwgraph/util/make_priority_queue.hpp", "include/nwgraph/algorithms/delta_stepping.hpp:97-156"]}
{"id": "C78", "title": "Vertex lists from Matrix Market files and load_graph", "statement": "read_mm_vector, on a file with a five word header (first word %%MatrixMarket, last symmetric or general), comment lines, a size line and n0 numbers separated by blanks, returns each number minus one modulo the id type (so vertices stored 1-based come back, in real files too); missing numbers repeat the last one and without any number the result is undefined; a number 0 gives the largest id in integer files and is undefined in real ones; the second size is only looked at by an assertion; a missing size line is undefined or gives an empty list depending on a final newline; any other header ends the program. is_mm and get_mm_symmetry depend on the first line only. load_graph returns a serialized edge list closed, hands Matrix Market text to read_mm and exits on any other first word; with a blank line before the header the reader ends the program.", "quantifier": "all header words, comments, sizes, numbers below 2^64, blanks, trailing texts, stored edge lists", "why_tests_cant": "The texts range over all layouts and numbers; truncated and malformed files hit uninitialised variables that a test run may not notice.", "anchors": ["include/nwgraph/io/mmio.hpp:277-374", "bench/common.hpp:82-102", "bench/common.hpp:146-156"]}
{"id": "C79", "title": "Source vertices of the benchmarks", "statement": "build_degrees counts the arcs into every vertex (modulo the id width) for every split of the edge range and every interleaving, and is undefined if a target is not a vertex. build_random_sources returns the first n drawn values that are the target of an arc (in-degree nonzero modulo the id width), is undefined when num_vertices itself is drawn before that (the distribution includes it), and does not end on a graph without arcs; so every source is the target of an arc of the graph, which for adjacency<1> (bfs, bc) is a vertex with an arc out in the file and for adjacency<0> (sssp) one with an arc in. On a graph built by the constructor the benchmarks use it is undefined outright, since begin()..end() has one row too many. load_sources_from_file returns the file's vertices or exits if a nonzero number is asked for and the file has another. bc has exactly trials * iterations sources, which its trials use in order, iterations each, if forming the address one past the end with operator[] is allowed, and is undefined otherwise. SourceVerifier counts the positions at which the two lists differ, and compares nothing if the file's length is wrong.", "quantifier": "all graphs, id widths, splits and interleavings, draw sequences, numbers of trials and iterations, files", "why_tests_cant": "A test sees one generator and one interleaving; whether the excluded value is drawn depends on the seed, and non-termination cannot be observed.", "anchors": ["bench/common.hpp:111-154", "bench/bc.cpp:98-122", "bench/bfs.cpp:88-104", "bench/SourceVerifier.cpp:41-71"]}
{"id": "C80", "title": "The connected components benchmark", "statement": "For every edge list the reader of bench/cc.cpp builds a graph whose arcs are, up to one renaming of the vertices, exactly those the options ask for (both directions for -s; for -f the pairs, turned by --succession and without loops under --clean), the transpose with it for -f, and with --relabel the new names are ordered by degree. Versions 1, 2, 6 and 8, and on symmetric files 5 and 10, give two vertices the same label exactly when a path of pairs of the file joins them, the label being the least new name of the component, under every interleaving. On directed files 10 labels with the least vertex that reaches, and 5 and 10 may join nothing. Versions 0 and 7 are undefined on every file, 9 and 11 on every file with a vertex, and --verify on every labelling of the right length. print_top_n prints the number of different labels and the min(n, that) most frequent ones with their counts in descending order; with the labels above these are the number and the sizes of the components.", "quantifier": "all edge lists, id widths that hold them, options, versions, schedules, sampled labels, sorts and map orders", "why_tests_cant": "A test runs a few files on one schedule; the reads one row past the end go unnoticed when the memory happens to be zero, and --verify with them.", "anchors": ["bench/cc.cpp:57-76", "bench/cc.cpp:112-161", "bench/cc.cpp:203-236", "include/nwgraph/experimental/algorithms/connected_components.hpp:273-599", "include/nwgraph/algorithms/connected_components.hpp:54-105"]}
{"id": "C81", "title": "The breadth-first search benchmark", "statement": "For every edge list bench/bfs.cpp's versions 0, 1, 6-12 (and 13, unless a level has more vertices than an int can count) return, for every source that is a vertex and under every interleaving, a breadth-first tree of the pairs taken backwards: exactly the vertices from which pairs of the file lead to the source have a parent, and the parent of v is the second vertex of a shortest way from v to the source. Version 2 does so or is undefined, and is undefined when more than a fraction 1/alpha of the pairs end in the source. A source that is not a vertex is undefined in every version. With --verify a vector with one entry per vertex is accepted exactly if it is such a tree; an unknown version returns an empty vector and is undefined with --verify. The sources are taken in order.", "quantifier": "all edge lists, id widths that hold them, sources, alpha, beta and numbers of bins, versions, schedules, workers and uninitialised bits", "why_tests_cant": "Symmetric test graphs do not show the direction of the search; the read past the graph is unnoticed when the memory after it is harmless; interleavings cannot be enumerated.", "anchors": ["bench/bfs.cpp:75-148", "bench/common.hpp:104-108", "include/nwgraph/algorithms/bfs.hpp:45-316", "include/nwgraph/experimental/algorithms/bfs.hpp:70-603"]}
{"id": "C82", "title": "The betweenness centrality benchmark", "statement": "For every edge list, every list of sources that are vertices and every interleaving, bench/bc.cpp's versions 0, 3, 4 and 5 give each vertex v the sum, over the sources s and the vertices t other than v, of the fraction of the shortest paths of the file from t to s that visit v, divided by the largest such sum; versions 1 and 7 (and 2, if there is at most one shortest path from any vertex to each source or the tasks are not interleaved) do the same without counting a source for itself. Version 6 gives the betweenness of the graph in the file, version 8 that plus the number of other vertices that lead to each vertex, both divided by the largest. There is no result exactly when all sums are 0. Versions 4, 5 and 8 are undefined on a file without edges; a source that is not a vertex is undefined in versions 0-5 and 7. --verify accepts a vector with an entry per vertex exactly if it is within 10^-6 of the sums of versions 0, 3, 4, 5, which therefore pass; an unknown version returns an empty vector and is undefined with --verify. Trial i uses the i-th block of the sources.", "quantifier": "all edge lists, id widths that hold them, source lists, versions, numbers of threads and interleavings; path counts below the range of the counting type", "why_tests_cant": "On symmetric test graphs the direction of the paths does not show, and after normalisation neither does which paths are credited; interleavings cannot be enumerated.", "anchors": ["bench/bc.cpp:81-152", "bench/common.hpp:104-108", "include/nwgraph/algorithms/betweenness_centrality.hpp:60-362", "include/nwgraph/experimental/algorithms/betweenness_centrality.hpp:69-124", "include/nwgraph/experimental/algorithms/betweenness_centrality.hpp:1231-1633"]}
{"id": "C83", "title": "The PageRank benchmark", "statement": "For every edge list and all options bench/pr.cpp is undefined, because build_degrees reads one row past the graph. Given a degree table with the number of arcs of the file that leave each vertex (which is what build_degrees makes of the rows of the vertices, under every split and schedule), versions 1, 2, 3, 4 (with a thread) and 7-14 are defined, whatever the score vector held, and leave finite scores y; with x the only solution of x_v = 0.15/N + 0.85 * sum over the arcs (u,v) of the file of x_u/outdegree(u): for 1, 4, 7-10 the total error is at most 17/3 of the tolerance or at most 2*0.85^max; for 11 and 14 at most 17/3 of the tolerance or each score is within the factor 20/3*(1-0.15/N)^max; for 2 the scores are never above x, and the total error is at most 17/3 of the tolerance (or the tolerance) or each relative error is at most (1-0.15/N)^max; for 3 and 13 the scores divided by N are below x with total error at most (20(max+1)*tolerance)/3 + 0.85^max; for 12 each score is at least 0.15/N (exactly that if the tolerance is at least 1/N), and with the test passed the total error is at most 17/3 of the tolerance times 1 + the number of arcs. Version 4 without threads leaves 1/N; version 6 is undefined; versions 0, 5 and above 14 change nothing. --verify prints ten different vertices with the greatest scores in descending order, is undefined with fewer than ten vertices, and what it prints does not depend on the versions and trials before, except after versions that change nothing.", "quantifier": "all edge lists, id widths that hold them, versions, numbers of threads, trials, tolerances, iteration limits, old contents of the scores, splits of the work and interleavings", "why_tests_cant": "The out-of-range row usually lies in allocated memory and is empty; the error bounds concern every graph and every interleaving.", "anchors": ["bench/pr.cpp:45-166", "bench/common.hpp:104-122", "include/nwgraph/util/proxysort.hpp:36-66", "include/nwgraph/algorithms/page_rank.hpp:89-148", "include/nwgraph/experimental/algorithms/page_rank.hpp:137-735"]}
{"id": "C84", "title": "Zipped columns", "statement": "Let the columns of a zipped be different containers, the first with n elements and the others with at least n. Every algorithm that reads rows (and may use what it read), assigns rows, copies one row over another and exchanges rows has on the rows the effect it has on an array of rows, is undefined exactly when it is there, and changes neither elements past n nor other containers. So an algorithm that sorts rows leaves every column permuted by one and the same permutation. Iterating from begin() to end() gives the rows if every column is at least as long as the first and is undefined if one is shorter. Exchanging rows does not change a container that is zipped an even number of times and changes one zipped an odd number of times as if once. resize(N) leaves N elements in every column, old ones kept and new ones 0; clear() empties them. (it + n) - n = it, (it + n) - it = n for distances that fit in a signed number, and n - it = it - n.", "quantifier": "all heaps of containers, lists of columns, algorithms, sizes, iterators and offsets", "why_tests_cant": "The tests sort one small zipped; the claim is about every algorithm over the iterators and every choice of columns.", "anchors": ["include/nwgraph/containers/zip.hpp:105-240", "include/nwgraph/containers/zip.hpp:295-297", "include/nwgraph/util/tuple_hack.hpp:38-46", "include/nwgraph/build.hpp:261-268"]}
{"id": "C85", "title": "The Oracle of Bacon", "statement": "Let the titles and names of the file and twice the number of pairs of credits for the same title be fewer than the values of vertex ids, let b be Kevin Bacon (the first name of the file if there is none), and let b have acted with somebody. The program prints no mismatch of names or titles; its furthest distance is the largest Bacon number (length of a shortest chain of people who acted together, from b), at least 1, and it lists exactly the people at it in the order of their first appearance. Everybody asked about who has a Bacon number d gets d and d lines, each naming two people and a title both are credited for, leading from them to b, and no such trail is shorter. Somebody without a Bacon number gets the number 0 and one line naming the first person and title of the file. A name not in the file gets a complaint and the report of the first name. If b acted with nobody, or if neither the person asked about nor anybody who first appears later acted with somebody, the program has undefined behaviour. delink gives a text without [[ unchanged, else what is between the first [[ and the first ]] (all that follows the [[ when there is no ]] or it comes before), from after its first bar.", "quantifier": "all files (lists of titles with casts), lists of names asked about, widths of ids and legal sorts; all texts for delink", "why_tests_cant": "No test runs the example; the claim is about every file, including films of equal title, people that are not connected and names that are absent.", "anchors": ["examples/imdb/oracle.cpp:39-54", "examples/imdb/oracle.cpp:89-169", "examples/imdb/oracle.cpp:178-235", "include/nwgraph/adaptors/bfs_edge_range.hpp:150-190"]}
{"id": "C86", "title": "Search-based connected components", "statement": "Let component_ids be filled with the largest value of the (unsigned) id type and let the graph have fewer vertices than the type has values. Under every schedule compute_connected_components ends without undefined behaviour and every vertex has a label below the number of vertices. Run in order, the searches start at the vertices that no smaller vertex reaches and the label of a vertex is the number of the last search that reaches it; so on a symmetric graph two vertices have the same label exactly if they are connected, and labels count 0, 1, ... in the order of the smallest vertices of the components. In parallel, even if all accesses are atomic: on every symmetric graph, for any two vertices that are not connected some schedule gives them the same label, and for any two different connected vertices some schedule gives them different labels. With a multiple of the number of id values as number of vertices nothing is labelled.", "quantifier": "all graphs with targets in range, all schedules, all widths of the id type; all pairs of vertices for the races", "why_tests_cant": "No test calls the function; the wrong labels depend on the interleaving, and the claim of a bad schedule is made for every graph and pair.", "anchors": ["include/nwgraph/experimental/algorithms/connected_components.hpp:70-90", "include/nwgraph/adaptors/bfs_edge_range.hpp:150-190"]}
{"id": "C87", "title": "Search benchmarks apb/dfs.cpp and apb/bfs.cpp", "statement": "The graph is adjacency<1> of a directed edge list (ids below the largest, fewer arcs than id values, any result std::sort may give). For every start vertex, every stack loop of apb/dfs.cpp ends after at most 1 + number of arcs steps, every queue loop of apb/bfs.cpp over the graph itself after at most number of vertices steps, without undefined behaviour, and the marked vertices are exactly those that lead to the start vertex along the arcs of the list. The queue loops over the copies with int ids do the same if no arc whose target leads to the start vertex has a source id from half of the id values on; if there is such an arc they always index a vector out of range. A start vertex that is not a vertex is always undefined behaviour. The loop over topdown_bfs_range yields exactly the vertices that lead to vertex 0, whatever the start vertex; the one over bfs_edge_range reads past the end of a row if no arc enters vertex 0.", "quantifier": "all edge lists, all start vertices, all widths of the vertex id type, every permitted result of std::sort", "why_tests_cant": "The benchmarks print times only and have no test; the sign problem needs graphs with more than 2^31 vertices, termination of the stack loop (which scans a vertex again each time it is popped) needs an argument about stack order.", "anchors": ["apb/dfs.cpp:32-174", "apb/bfs.cpp:32-306"]}
{"id": "C88", "title": "Matrix-vector and degree benchmarks of apb", "statement": "The graph is adjacency<1> of a directed edge list (ids below the largest, fewer arcs than id values, any result std::sort may give). In whatever arithmetic and in any order of the rows, the loops over positions add to y[i] the products x[source] * weight of the arcs that enter i, one after the other; with std::transform_reduce y[i] becomes 0 plus a generalised sum of them; in exact arithmetic y is in both cases the product of x with the transposed matrix of the list. The degree loops over positions or over graph[i] give the in-degrees and, counting neighbours, the out-degrees; the loops that count vertices give ones. But the graph these benchmarks build has an end() one row too far, so every loop over begin() .. end(), neighbor_range, edge_range (whole, and in some piece however tbb splits it) or plain_range is undefined behaviour; on a graph built with the number of vertices the same loops compute what the raw loop computes.", "quantifier": "all edge lists, all vectors x, all arithmetics, all orders of the rows, all trees of range splits, every permitted result of std::sort and std::transform_reduce", "why_tests_cant": "The benchmarks print times only; the read past the end usually hits the same allocation and goes unnoticed; rounding and reduction order vary.", "anchors": ["apb/spmv.cpp:29-222", "apb/exec.cpp:28-112", "apb/plain.cpp:30-490", "apb/tbb.cpp:28-262"]}
{"id": "C89", "title": "The containers of the container benchmark hold the same graph, except a compressed one filled from an unsorted list", "statement": "Filling a vector of forward lists (vofos.hpp) by push_back from any edge list never fails, grows the vector as far as the sources need and leaves every list in the reverse of the order of arrival. For every edge list built with valid ids, every arithmetic and every number of trials, the four multiplication loops of apb/containers.cpp stay in bounds and leave the same vector y, with one entry per vertex. With a vector of vectors, lists or forward lists the entry of u is made of the edges whose first end is u alone, added in list order (in reverse for the forward lists); an edge counts for its first end only although the list is undirected. With the compressed container the row of u is as long as the number of edges with source u, but the rows are the consecutive pieces of the edge list in the order given, so they are the right ones when the list is sorted by source and in general not. With exact arithmetic all containers agree (the compressed one when sorted), and the sum of y is right in all cases.", "quantifier": "all edge lists with ids below the width of the id type, all containers, all numbers of trials, all multiply-add operations", "why_tests_cant": "The benchmark prints times only and checks no result; a wrong row in the compressed container shows up only on unsorted input.", "anchors": ["apb/containers.cpp:70-172", "include/nwgraph/vofos.hpp:31-90", "include/nwgraph/build.hpp:89-96", "include/nwgraph/containers/compressed.hpp"]}
{"id": "C90", "title": "The Dijkstra benchmark finds the least rounded sums, and runs for ever on a negative cycle", "statement": "For the graph apb/dijkstra.cpp builds from any edge list with valid ids, and every number type with a weak order, a monotone addition and weights that never decrease a sum (non-negative doubles with rounding included), the six loops stay in bounds, end within one step per edge and one for the start, however the priority queue breaks ties, and leave the same distances: the distance of v is the least of the sums, added up from the start, along walks from the start to v, or the initial maximum when no such sum is below it. As the graph is indexed by the second column, walks follow the edges backwards. With no trial every distance stays the maximum; with a start that is no vertex the run writes out of bounds. With any weights and any order of the queue, if the run ends then no edge can improve the distances; hence with exact numbers it never ends when a walk from the start back to it has a negative sum. With any weights nothing is read or written out of bounds; with a walk of negative sum back to the start no number of steps is enough.", "quantifier": "all edge lists with valid ids, all starts, all numbers of trials, all number types as described, all queue tie-breaking", "why_tests_cant": "The benchmark prints times only; ties, rounding and negative weights depend on the input, and non-termination cannot be observed.", "anchors": ["apb/dijkstra.cpp:50-275", "apb/dijkstra.cpp:361-379"]}
{"id": "C91", "title": "The s-overlap graph joins exactly the pairs with s incidences in common, in every order of the parallel loop", "statement": "For every list of incidences with valid ids, every s >= 1 and every order in which the iterations of the parallel loop of dns.cpp (s = 2) and main.cpp (s = 1) append their pairs, all reads stay in bounds, s_overlap holds (i, j) exactly once for i < j with at least s pairs of incidences in common (one of i, one of j, with the same other end) and nothing else, sorted when the loop is sequential; the graph L built from it has v exactly once in the row of u when u and v differ and have at least s in common, and as many rows as its largest vertex with a neighbour needs. Without repeated incidences that means s different common members; with repetitions an incidence listed a times and one listed b times count a * b.", "quantifier": "all incidence lists with valid ids, all s >= 1, all orders of the iterations", "why_tests_cant": "The programs print times only; the order of the critical sections depends on the scheduler and the counts on repetitions in the input.", "anchors": ["examples/imdb/dns.cpp:32-91", "examples/imdb/main.cpp:104-153"]}
{"id": "C92", "title": "imdb.cpp prints least Bacon numbers with true trails, for the rows it files the credits under", "statement": "For all tables with the columns read and sizes that fit in an id, with Kevin Bacon in a film row with another and both people asked about in range, imdb.cpp reads no cell out of range and prints the credits of nm0837064 in order, 0 for Kevin Bacon, and for each of the two the least number of steps together with a trail of exactly that many lines, each of two different people who are both in the film row named. The row of a person is the last with their id, that of a film the last with its id and type movie, and 0 if there is none. One with no trail gets the number 0 and a single line naming row 0 of both tables. Kevin Bacon with nobody, or one of the two in a row after everyone who acts with another, is undefined behaviour. Credits for any two titles not listed as movies count as the same film: nm0001718 then has number 1 and, if no other film row is shared, the title printed is the one in row 0, the header.", "quantifier": "all tables of titles, names and principals of the stated shape and size, all sorts used by the fills", "why_tests_cant": "The data are gigabytes and are not in the repository; the program has no test and its output cannot be checked by looking at it, since a wrong trail reads like a right one.", "anchors": ["examples/imdb/imdb.cpp:34-191"]}
{"id": "C93", "title": "Author numbers are distances, all with the same excess of 0 or 1", "statement": "dblp.cpp numbers titles and names in the order they first occur, never prints a complaint, and, if any name is given, reports on the starting name and on every name asked: there is one excess c in {0,1} such that each printed number is the least number of co-author steps from the starting name plus c, with as many lines as steps that form a trail of true co-authorships; one who is not linked gets 0 and one line that names the first name and the first title. A starting name without co-authors gets the number 1. A name that does not occur gets the first name's report. Without any name the behaviour is undefined. oracle+dblp.cpp does the same for movies (with names delinked) and articles together, starting from Kevin Bacon.", "quantifier": "all entries whose counts fit the id type, all starting names and questions, all sorts by key", "why_tests_cant": "all hypergraphs; the excess depends on the order in which rows come out of an unstable sort", "anchors": ["examples/imdb/dblp.cpp", "examples/imdb/oracle+dblp.cpp"]}
{"id": "C94", "title": "The book's Kevin Bacon program prints the Bacon number of every actor, all with the same excess of 0 or 1", "statement": "Every file is a list of lines of which each says actor;movie;actor (what is missing is empty, the last field may contain semicolons). If Kevin Bacon occurs, ch4_kevin_bacon.cpp prints every actor of the file exactly once in the order of their names; there is one excess c in {0,1}, 0 unless a line names Kevin Bacon twice, such that the number printed for an actor with a chain is the least number of steps to Kevin Bacon plus c; an actor without a chain is printed with 0. If Kevin Bacon does not occur the behaviour is undefined.", "quantifier": "all files whose counts fit the id type, all sorts by key", "why_tests_cant": "all files and all outcomes of an unstable sort", "anchors": ["examples/bgl-book/ch4_kevin_bacon.cpp"]}
{"id": "C95", "title": "Text to binary conversion keeps the list", "statement": "For every list with ids below the limit of a vertex id of at most four bytes and int values, the text write_mm makes of it (general if directed, symmetric if undirected) is converted by ProcessEdgelist into a file from which deserialize restores the same edges in the same order with the same values, negative ones included, the list closed and the least vertex count that covers the ids; load_graph reads from it, into a list without attributes, the same pairs, leaving exactly the bytes of the attribute column unread. For any text a file is written only if the text can be read, and what was read comes back. With both options both files are written, the one as directed, the other as undirected.", "quantifier": "all edge lists, all texts, all bytes following the file", "why_tests_cant": "all lists and values; int bytes in two's complement", "anchors": ["bench/ProcessEdgelist.cpp", "include/nwgraph/io/mmio.hpp", "bench/common.hpp"]}
{"id": "C96", "title": "Counting iterators count every assignment in every interleaving; permuting iterators visit what the permutation says", "statement": "Any number of threads assigning through par_counting_output_iterators to any counters: in every interleaving of lock, load, store and unlock nothing goes wrong, once all are done each counter has grown by exactly the number of assignments to it (modulo the size of size_t), from every reachable state all can be done, and every schedule of four rounds per assignment in which each thread gets a turn is enough. The same count for atomic_counting_output_iterator. A loop over permutation_iterators from i to last yields array[base + perm(k)] for k = i..last-1 and nothing else; over the whole array with a permutation it yields a rearrangement; to a smaller index or to an end with another base it never ends.", "quantifier": "all numbers of threads and counters, all work, all schedules; all arrays and maps of indices", "why_tests_cant": "all interleavings", "anchors": ["include/nwgraph/util/util_par.hpp", "include/nwgraph/util/permutation_iterator.hpp"]}
{"id": "C97", "title": "The result table of the benchmarks lines up exactly when the fields fit", "statement": "For every configuration with a host name of fewer than 20 characters Log prints the header if asked, then one row per sample in order. In a row each field stands at the place of its heading, followed by blanks up to the next column, if it and the fields before it fit their columns; the compiler's columns always fit with a blank to spare. A field as wide as its column or wider is followed at once by the next. A host name of 20 characters or more is undefined behaviour. A graph in a file a_anything or a.ending is called a. Of several endings only the last goes, and a name that begins with its only dot is kept whole.", "quantifier": "all texts, all numbers of times, all samples", "why_tests_cant": "all texts; an array without ending zero usually prints plausibly", "anchors": ["bench/Log.hpp"]}
{"id": "C98", "title": "The table of times has one row per configuration, in order, with least, mean and greatest time", "statement": "For every sequence of recordings, Times::print shows the configurations in the order of file, version and threads, exactly one row for each that was recorded, with the least and the greatest of its times and the sum and number its mean is made of; nothing dereferences an end iterator; the first column is two wider than the longest file name and at least six wide. A version or thread number in the range of long is read as written whatever follows that is not a digit; one out of range, or a text starting with neither blank, sign nor digit, is an exception. Without thread arguments what TBB allows is used.", "quantifier": "all recordings, all numbers, all lists of arguments", "why_tests_cant": "all orders of recordings; std::stol silently ignores what follows", "anchors": ["bench/common.hpp"]}
