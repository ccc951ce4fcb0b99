{"id": "C01", "title": "calc_path returns the minimum weight", "statement": "Let g be any frozen InputGraph built through the API, fg the FastGraph returned by prepare / prepare_with_params, and s,t two node ids below get_num_nodes(). If calc_path(fg,s,t) returns Some(p) then no walk from s to t along the edges of g.get_edges() has a weight smaller than p.get_weight().", "quantifier": "all API-built frozen graphs, all Params, all s,t, all heap tie-breakings, all calculator histories; builds with overflow checks (for builds without them see C15, C16, C76 and C84)", "why_tests_cant": "random tests sample 50-node graphs; a wrong witness decision, a wrong stall or a wrong stopping rule shows only on particular weight/rank configurations", "anchors": ["src/lib.rs: prepare, prepare_with_params, calc_path", "src/fast_graph_builder.rs: FastGraphBuilder::run_contraction, finish_contraction", "src/node_contractor.rs: contract_node, handle_shortcuts", "src/witness_search.rs: WitnessSearch::find_max_weight", "src/path_calculator.rs: PathCalculator::calc_path"]}
{"id": "C02", "title": "None exactly when there is no path", "statement": "For a prepared graph, calc_path(fg,s,t) returns None if and only if no walk from s to t in the frozen input graph has a weight below WEIGHT_MAX (usize::MAX); in particular it never misses a path and never invents one.", "quantifier": "all API-built frozen graphs, all Params/orders, all s,t; builds with overflow checks (for builds without them see C15, C16, C76 and C84)", "why_tests_cant": "reachability of every pair in every graph cannot be enumerated", "anchors": ["src/path_calculator.rs: PathCalculator::calc_path_multiple_sources_and_targets", "src/lib.rs: calc_path"]}
{"id": "C03", "title": "Returned nodes are a real path with the returned weight", "statement": "If calc_path(fg,s,t)=Some(p) then p.get_nodes() is a non-empty list that starts with s=p.get_source(), ends with t=p.get_target(), every consecutive pair is an edge of g.get_edges(), and the weights of these edges sum up exactly to p.get_weight().", "quantifier": "all API-built frozen graphs, all Params/orders, all s,t; builds with overflow checks (for builds without them see C15, C16, C76 and C84)", "why_tests_cant": "shortcut unpacking recurses to input dependent depth and direction; ShortestPath's PartialEq ignores nodes, so most tests do not even look at them", "anchors": ["src/path_calculator.rs: extract_nodes, unpack_fwd, unpack_bwd", "src/fast_graph_builder.rs: finish_contraction, get_in_edge_id, get_out_edge_id", "src/shortest_path.rs: ShortestPath"]}
{"id": "C04", "title": "Multi-source/multi-target queries minimise start + path + end weight", "statement": "calc_path_multiple_sources_and_targets(fg,sources,targets) returns Some(p) with p.get_weight() equal to the minimum of ws + w(path) + wt over all (s,ws) in sources, (t,wt) in targets and all walks from s to t, whenever this minimum is below WEIGHT_MAX, and None otherwise.", "quantifier": "all prepared graphs, all non-empty source/target lists (with duplicates, overlaps and arbitrary weights); builds with overflow checks (for builds without them see C15, C16, C76 and C84)", "why_tests_cant": "combinatorial space of weighted source/target lists", "anchors": ["src/lib.rs: calc_path_multiple_sources_and_targets", "src/path_calculator.rs: calc_path_multiple_sources_and_targets"]}
{"id": "C05", "title": "Multi-source path decomposes exactly over listed end points", "statement": "If a multi-source query returns Some(p), there are entries (s,ws) in sources and (t,wt) in targets, both weights below WEIGHT_MAX, such that p.get_nodes() is a walk from s=get_source() to t=get_target() of weight w with ws + w + wt = p.get_weight(). Entries with weight WEIGHT_MAX are never used.", "quantifier": "all prepared graphs and all source/target lists; builds with overflow checks (for builds without them see C15, C16, C76 and C84)", "why_tests_cant": "needs every combination of duplicate, overlapping and WEIGHT_MAX entries", "anchors": ["src/path_calculator.rs: calc_path_multiple_sources_and_targets, extract_nodes"]}
{"id": "C06", "title": "Source equals target", "statement": "calc_path(fg,s,s) returns Some with weight 0 and nodes [s] for every node s of every prepared graph, whatever its weights (it never overflows).", "quantifier": "all prepared graphs, all s; builds with overflow checks (for builds without them see C15, C16, C76 and C84)", "why_tests_cant": "every node of every graph", "anchors": ["src/path_calculator.rs: calc_path_multiple_sources_and_targets"]}
{"id": "C07", "title": "Any node ordering gives the same answers", "statement": "For every permutation `order` of 0..n-1, prepare_with_order(g,order) returns Ok(fg') unless it stops with an arithmetic overflow or capacity panic, and for all s,t calc_path on fg' and on prepare(g) agree: both None or both Some with equal weight.", "quantifier": "all API-built graphs, all n! permutations, all limits, all s,t; builds with overflow checks (for builds without them see C15, C16, C76 and C84)", "why_tests_cant": "n! orders", "anchors": ["src/lib.rs: prepare_with_order, prepare_with_order_with_params", "src/fast_graph_builder.rs: run_contraction_with_order"]}
{"id": "C08", "title": "Tuning parameters never change the answers", "statement": "For any two Params values (any f32 factors including NaN and infinities, any settled-node limits including 0), the graphs returned by prepare_with_params answer every query with the same weight / the same None.", "quantifier": "all Params pairs, all graphs, all queries; builds with overflow checks (for builds without them see C15, C16, C76 and C84)", "why_tests_cant": "parameter space is unbounded; limits cut the witness search at arbitrary points", "anchors": ["src/fast_graph_builder.rs: Params, run_contraction", "src/node_contractor.rs: calc_relevance"]}
{"id": "C09", "title": "prepare_with_order validates its order argument", "statement": "prepare_with_order(g,order) returns Err exactly if order.len() differs from the number of nodes, panics if an entry is not a valid node id, and never returns Ok for an order that is not a permutation of the node ids.", "quantifier": "all graphs, all order slices; builds with and without overflow checks", "why_tests_cant": "all slices incl. duplicates", "anchors": ["src/fast_graph_builder.rs: build_with_order_with_params, run_contraction_with_order"]}
{"id": "C10", "title": "Node ordering round trip", "statement": "get_node_ordering(fg) of a prepared graph is a permutation of 0..n-1; for a graph prepared with a permutation `order` it is exactly `order`; and it can be fed back to prepare_with_order for every graph with the same number of nodes.", "quantifier": "all graphs, all orders/params; builds with and without overflow checks", "why_tests_cant": "all permutations", "anchors": ["src/fast_graph.rs: FastGraph::get_node_ordering", "src/lib.rs: get_node_ordering"]}
{"id": "C11", "title": "Reusing a PathCalculator never changes an answer", "statement": "A PathCalculator that has already executed an arbitrary sequence of queries (on any graphs with the same node count) returns for the next query exactly the same result, including the node list, as a newly created calculator.", "quantifier": "all histories of queries of any length, including more than 2^32 resets", "why_tests_cant": "histories are unbounded; the u32 generation counter wraps after 2^32-1 queries", "anchors": ["src/path_calculator.rs: PathCalculator", "src/valid_flags.rs: ValidFlags::invalidate_all"]}
{"id": "C12", "title": "Misuse of the query API is rejected, correct use never panics", "statement": "A query on a prepared graph panics with the documented assertion exactly if the calculator was made for another node count, a list is empty or contains an id >= n; otherwise the only possible panic is an arithmetic overflow of the weights (with overflow checks on), and the query terminates.", "quantifier": "all prepared graphs, all arguments", "why_tests_cant": "absence of panics/non-termination on all inputs", "anchors": ["src/path_calculator.rs: calc_path_multiple_sources_and_targets, extract_nodes", "src/fast_graph.rs: FastGraphEdge::is_shortcut"]}
{"id": "C13", "title": "Preparation never hits an internal assertion and terminates", "statement": "For every API-built frozen graph, prepare_with_params and prepare_with_order_with_params (with a permutation) terminate and the only possible panics are arithmetic overflow and vector capacity overflow; in particular 'should have removed exactly one edge', 'could not find in/out-edge id', 'path calculation must not start with avoided node' and index panics never occur.", "quantifier": "all API-built graphs, all params/orders; builds with overflow checks (for builds without them see C15, C16, C76 and C84)", "why_tests_cant": "all graphs; deep internal invariants", "anchors": ["src/preparation_graph.rs: remove_edge_with_adj_node, disconnect", "src/fast_graph_builder.rs: get_out_edge_id, get_in_edge_id", "src/witness_search.rs: init, find_max_weight"]}
{"id": "C14", "title": "Sufficient conditions for panic freedom", "statement": "If the input weights are small enough (an explicit bound in terms of the maximal weight, the number of nodes and usize::MAX) preparation returns normally, and if the weights of the prepared graph and the start/end weights satisfy an explicit bound, every query with valid arguments returns normally.", "quantifier": "all graphs/queries meeting the bound; builds with overflow checks (for builds without them see C15, C16, C76 and C84)", "why_tests_cant": "boundary of the overflow-free region cannot be sampled", "anchors": ["src/node_contractor.rs: handle_shortcuts", "src/path_calculator.rs: calc_path_multiple_sources_and_targets"]}
{"id": "C15", "title": "Builds with and without overflow checks agree", "statement": "Whenever preparation or a query returns normally in a build with overflow checks, the build without overflow checks (wrapping arithmetic) returns exactly the same value.", "quantifier": "all inputs", "why_tests_cant": "quantifies over two compilations of the program on all inputs", "anchors": ["Cargo.toml: profile", "src/path_calculator.rs", "src/witness_search.rs", "src/node_contractor.rs"]}
{"id": "C16", "title": "Answers are right for all representable weights (also without overflow checks)", "statement": "In a release build (wrapping arithmetic), for every API-built graph with weights in usize, calc_path on the prepared graph returns the minimum weight.", "quantifier": "all weights up to usize::MAX", "why_tests_cant": "needs extreme weights; tests use weights below 100", "anchors": ["src/node_contractor.rs: handle_shortcuts", "src/path_calculator.rs"]}
{"id": "C17", "title": "Heap and queue tie-breaking does not matter", "statement": "The weight returned by a query (and whether a path is found) does not depend on which of several equally light heap items BinaryHeap pops first, nor on the order in which the priority queue returns nodes.", "quantifier": "all heap/queue implementations satisfying the container contract; builds with overflow checks (for builds without them see C15, C16, C76 and C84)", "why_tests_cant": "container internals may change between library versions", "anchors": ["src/heap_item.rs: HeapItem::cmp", "src/path_calculator.rs", "src/fast_graph_builder.rs: run_contraction"]}
{"id": "C18", "title": "freeze() normalises the edge list", "statement": "After freeze(), get_edges() is strictly increasing in (from,to); it contains an edge from u to v iff an edge from u to v with u != v and weight >= 1 was added, and its weight is the minimum over all added ones.", "quantifier": "all sequences of add_edge/add_edge_bidir/freeze/thaw calls", "why_tests_cant": "all histories", "anchors": ["src/input_graph.rs: freeze, sort, remove_duplicate_edges, do_add_edge"]}
{"id": "C19", "title": "freeze/thaw protocol", "statement": "In every call history get_edges/get_num_nodes/get_num_edges panic exactly while the graph is not frozen, add_edge/add_edge_bidir panic exactly while it is frozen, freeze panics exactly if it is frozen, thaw never panics (a freshly created graph is not frozen); each way to prepare a graph panics while it is not frozen.", "quantifier": "all call histories", "why_tests_cant": "all histories", "anchors": ["src/input_graph.rs: check_frozen, freeze, thaw, do_add_edge"]}
{"id": "C20", "title": "add_edge bookkeeping", "statement": "add_edge returns 1 (add_edge_bidir 2) if the edge was accepted and 0 iff it is a loop or has zero weight, in which case nothing changes; get_num_nodes() is always one more than the largest node id of an accepted edge (0 if there is none); get_num_edges() is the length of get_edges().", "quantifier": "all call histories; in builds without overflow checks all node ids below usize::MAX", "why_tests_cant": "all histories", "anchors": ["src/input_graph.rs: do_add_edge, get_num_nodes, get_num_edges"]}
{"id": "C21", "title": "Insertion order, duplicates and freeze/thaw cycles are irrelevant", "statement": "Two call histories that add the same set of accepted edges, in any order, with any number of repetitions or intermediate freeze/thaw cycles, give identical frozen graphs (get_edges and get_num_nodes), hence identical prepared graphs and answers.", "quantifier": "all pairs of histories; in builds without overflow checks all node ids below usize::MAX", "why_tests_cant": "pairs of unbounded histories", "anchors": ["src/input_graph.rs: freeze, thaw", "src/lib.rs: prepare"]}
{"id": "C22", "title": "to_file / from_file round trip", "statement": "Writing a frozen graph with to_file and reading the text back with from_file yields a frozen graph with the same edges and the same number of nodes.", "quantifier": "all API-built frozen graphs; in builds without overflow checks all node ids below usize::MAX", "why_tests_cant": "all graphs", "anchors": ["src/input_graph.rs: to_file, read_from_file, read_arc_line"]}
{"id": "C23", "title": "DIMACS round trip", "statement": "Writing a frozen graph with to_dimacs_file and reading it back with from_dimacs_file yields a frozen graph with the same edges and number of nodes.", "quantifier": "all API-built frozen graphs; in builds without overflow checks all node ids below usize::MAX", "why_tests_cant": "all graphs", "anchors": ["src/input_graph.rs: to_dimacs_file, read_from_dimacs"]}
{"id": "C24", "title": "from_dimacs_file rejects malformed files", "statement": "from_dimacs_file panics on every file with a second problem line, an arc line before the problem line, fewer or more arc lines than declared, a node id that is 0 or above the declared node count, or an unknown line; in particular on a file cut off after any proper prefix of its lines.", "quantifier": "all files (line lists), all cut points", "why_tests_cant": "all files and crash points", "anchors": ["src/input_graph.rs: read_from_dimacs"]}
{"id": "C25", "title": "DIMACS node count is respected", "statement": "The graph returned by from_dimacs_file has as many nodes as the problem line declares.", "quantifier": "all valid DIMACS files", "why_tests_cant": "isolated trailing nodes", "anchors": ["src/input_graph.rs: read_from_dimacs"]}
{"id": "C26", "title": "A successful or interrupted write cannot be mistaken for a complete file", "statement": "If to_file / to_dimacs_file return Ok then the complete text has reached the file; and a file cut off at any byte is not silently accepted as a different graph by the reader.", "quantifier": "all graphs, all write-error schedules, all crash points (byte positions); in builds without overflow checks all node ids below usize::MAX", "why_tests_cant": "I/O failure schedules and crash points", "anchors": ["src/input_graph.rs: to_file, to_dimacs_file, read_from_file, read_from_dimacs"]}
{"id": "C27", "title": "32-bit representation round trip", "statement": "On a 64-bit platform, converting a FastGraph to FastGraph32 and back gives an identical graph, and hence identical query results, if the node count is below 2^32-1 and every other stored integer is either usize::MAX or below 2^32-1.", "quantifier": "all FastGraph values", "why_tests_cant": "all graphs", "anchors": ["src/fast_graph32.rs: FastGraph32::new, convert_to_usize", "src/lib.rs: serialize_32, deserialize_32"]}
{"id": "C28", "title": "32-bit conversion fails exactly on values that do not fit", "statement": "On a 64-bit platform serialize_32's conversion panics if and only if some stored integer is larger than u32::MAX and different from usize::MAX; otherwise it stores exactly the same integers, with usize::MAX represented by u32::MAX; it never truncates silently.", "quantifier": "all FastGraph values (64-bit)", "why_tests_cant": "all graphs", "anchors": ["src/fast_graph32.rs: usize_to_u32"]}
{"id": "C29", "title": "README: weights below 2^32 are enough for the 32-bit format", "statement": "Every prepared graph whose node count, edge count and weights are all below 2^32 answers every query identically after serialize_32/deserialize_32.", "quantifier": "all prepared graphs with values below 2^32", "why_tests_cant": "boundary value 2^32-1", "anchors": ["README.md: Serializing the prepared graph", "src/fast_graph32.rs: u32_to_usize, usize_to_u32"]}
{"id": "C30", "title": "32-bit serialization also works on a 32-bit platform", "statement": "On a platform with 32-bit usize, FastGraph32::new terminates for every prepared graph.", "quantifier": "all prepared graphs, 32-bit usize", "why_tests_cant": "tests run on 64-bit only", "anchors": ["src/fast_graph32.rs: usize_to_u32"]}
{"id": "C31", "title": "Symmetric graphs give symmetric answers", "statement": "If every edge of the graph was added with add_edge_bidir, calc_path(fg,s,t) and calc_path(fg,t,s) are both None or have equal weights.", "quantifier": "all bidirectional graphs, all s,t; builds with overflow checks (for builds without them see C15, C16, C76 and C84)", "why_tests_cant": "all graphs", "anchors": ["src/input_graph.rs: add_edge_bidir", "src/path_calculator.rs"]}
{"id": "C32", "title": "Returned weights are a metric-like structure; returned paths are simple and sub-path optimal", "statement": "For every prepared graph: w(s,t) <= w(s,m)+w(m,t) whenever both right-hand paths are found and their sum is below WEIGHT_MAX; no node occurs twice in get_nodes(); and for every two positions i<=j of a returned path, querying node i to node j gives exactly the weight of that part of the path.", "quantifier": "all prepared graphs, all node triples/positions; builds with overflow checks (for builds without them see C15, C16, C76 and C84)", "why_tests_cant": "all triples, all paths", "anchors": ["src/path_calculator.rs"]}
{"id": "C33", "title": "ShortestPath equality", "statement": "== on ShortestPath is an equivalence relation that holds iff source, target and weight agree (node lists are ignored); is_found() is false exactly for weight WEIGHT_MAX; every path returned by a query is_found. A program that replaces None by ShortestPath::none(s, t) gets a value with the source and target of the query, found exactly if there is a walk of weight below WEIGHT_MAX, with an empty node list otherwise, and equal (==) for every prepared graph of the same graph.", "quantifier": "all ShortestPath values; returned paths in builds with overflow checks (for builds without them see C15, C16, C76 and C84)", "why_tests_cant": "all values", "anchors": ["src/shortest_path.rs: PartialEq, is_found, none", "src/lib.rs: run_test_on_random_graph"]}
{"id": "C34", "title": "Shape of the prepared graph", "statement": "prepare keeps the node count; every stored edge of the prepared graph represents a real walk of exactly that weight between its end nodes in the input graph, and edges incident to a node lead only to nodes contracted later.", "quantifier": "all API-built graphs, params, orders; builds with overflow checks (for builds without them see C15, C16, C76 and C84)", "why_tests_cant": "all graphs", "anchors": ["src/fast_graph.rs: FastGraph", "src/fast_graph_builder.rs"]}
{"id": "C35", "title": "Contraction preserves all remaining distances", "statement": "Preparing a graph in any order never loses a shortest path: for every pair of nodes there is an up-down path in the prepared graph (ranks increasing, then decreasing) with exactly the shortest path weight of the input graph.", "quantifier": "all graphs, orders, witness-search limits; builds with overflow checks (for builds without them see C15, C16, C76 and C84)", "why_tests_cant": "all graphs and limits", "anchors": ["src/node_contractor.rs: contract_node", "src/witness_search.rs: find_max_weight"]}
{"id": "C36", "title": "Adding an edge never increases a distance", "statement": "If graph h contains all edges of g (same nodes), then every query answered with weight w on prepare(g) is answered on prepare(h) with a weight <= w.", "quantifier": "all pairs of graphs g subset h, all queries; builds with overflow checks (for builds without them see C15, C16, C76 and C84)", "why_tests_cant": "pairs of graphs", "anchors": ["src/lib.rs: prepare, calc_path"]}
{"id": "C37", "title": "The reference implementations used as test oracles are right", "statement": "Dijkstra::calc_path and FloydWarshall::calc_weight return the shortest path weight (None / WEIGHT_MAX iff unreachable) for every graph, hence agree with calc_path.", "quantifier": "all graphs, all s,t; builds with overflow checks, and builds without them if the number of nodes times the greatest weight (twice that for FloydWarshall) is a usize", "why_tests_cant": "the oracles themselves are only checked on three small graphs", "anchors": ["src/dijkstra.rs: Dijkstra", "src/floyd_warshall.rs: FloydWarshall"]}
{"id": "C38", "title": "Generation counter wrap-around is safe", "statement": "For any sequence of set/reset operations of any length, a node is reported as visited iff it has been marked since the last reset, also across the wrap of the 32-bit generation counter.", "quantifier": "all operation sequences of unbounded length", "why_tests_cant": "2^32 resets are needed to reach the wrap", "anchors": ["src/valid_flags.rs: ValidFlags"]}
{"id": "C39", "title": "Loops, zero-weight and duplicate edges do not affect answers", "statement": "The weight returned for a query is the minimum over walks in the multigraph of all edges passed to add_edge/add_edge_bidir with positive weight, loops included.", "quantifier": "all call histories, all queries; builds with overflow checks (for builds without them see C15, C16, C76 and C84)", "why_tests_cant": "all multigraphs", "anchors": ["src/input_graph.rs: do_add_edge, remove_duplicate_edges", "README.md: Graph limitations"]}
{"id": "C40", "title": "Written on 64 bit, read on 32 bit", "statement": "A graph prepared and converted by serialize_32 on a 64-bit platform, with all values below 2^32-1 and fewer than 2^31-1 nodes and edges, converts back on a 32-bit platform (deserialize_32, e.g. WASM), and there every query that returns gives the minimum weight and a real path (None iff it is not below 2^32-1); single-path queries with valid ids never panic except by overflow of a weight sum.", "quantifier": "all prepared graphs, all queries, both platforms; builds with overflow checks (for builds without them see C15, C16, C76 and C84)", "why_tests_cant": "needs two platforms and all graphs; sentinel values differ between the platforms", "anchors": ["src/lib.rs: serialize_32, deserialize_32", "src/fast_graph32.rs: usize_to_u32, u32_to_usize, convert_to_usize"]}
{"id": "C41", "title": "from_file reads exactly the arc lines", "statement": "from_file returns the frozen graph of exactly the lines that start with 'a ' (each must consist of three decimal usize values after the prefix), ignores all other lines, and panics on a malformed arc line, on invalid UTF-8, when the file cannot be opened and when reading fails; it never hangs.", "quantifier": "all files (byte strings), all read errors", "why_tests_cant": "all byte strings", "anchors": ["src/input_graph.rs: from_file, read_from_file, read_arc_line"]}
{"id": "C42", "title": "Text files are portable between platforms", "statement": "A file written by to_file or to_dimacs_file on one platform gives the same graph on another platform if node count, edge count and weights fit its usize; a value that does not fit makes the reader panic instead of being truncated.", "quantifier": "all API-built frozen graphs, all widths of usize for writer and reader; in builds without overflow checks all node ids below usize::MAX", "why_tests_cant": "all graphs and two platforms", "anchors": ["src/input_graph.rs: to_file, to_dimacs_file, read_from_file, read_from_dimacs, read_arc_line"]}
{"id": "C43", "title": "Misuse of the reference implementations is detected", "statement": "Dijkstra::calc_path panics for node ids or graphs that do not fit the object; FloydWarshall::calc_weight panics for unknown sources and targets, and FloydWarshall::prepare on a used object forgets the earlier graph. (The target and reuse parts are false for FloydWarshall: an unknown target is answered like another pair of nodes, or panics.)", "quantifier": "all objects, all graphs, all s,t; builds with overflow checks (for builds without them see C15, C16, C76 and C84)", "why_tests_cant": "unknown ids may alias valid matrix entries; stale entries only show for particular pairs of graphs", "anchors": ["src/dijkstra.rs: Dijkstra::calc_path", "src/floyd_warshall.rs: FloydWarshall::prepare, FloydWarshall::calc_weight"]}
{"id": "C44", "title": "A saved graph is loaded unchanged", "statement": "A FastGraph or InputGraph written with serde/bincode and read back on the same platform is the same value, whatever follows it in the stream; different graphs give different files; every file that loads starts with exactly the bytes that saving the loaded graph writes.", "quantifier": "all platforms of at most 64 bits; all graphs, in particular all prepared graphs and all call histories of an input graph; all trailing bytes; builds with and without overflow checks", "why_tests_cant": "round trips on sample graphs cannot exclude a value, a length or a field order that is not restored", "anchors": ["src/fast_graph.rs: derive(Serialize, Deserialize)", "src/input_graph.rs: derive(Serialize, Deserialize)", "src/lib.rs: save_to_disk, load_from_disk"]}
{"id": "C45", "title": "An incompletely saved graph is rejected", "statement": "If writing stops at any point before the last byte, loading the file returns an error (end of file) and never a graph; also for the 32-bit form and for input graphs, and on whatever platform the file is read.", "quantifier": "all graphs, all crash points (byte positions) while saving", "why_tests_cant": "crash points must be tried for every byte of every graph", "anchors": ["src/lib.rs: save_to_disk, load_from_disk, serialize_32, deserialize_32"]}
{"id": "C46", "title": "serialize_32 and deserialize_32 are inverse", "statement": "For prepared graphs with fewer than 2^32-1 nodes, edges and weights, deserialize_32 restores what serialize_32 wrote, within a larger stream; on a 32-bit platform the restored graph answers queries correctly; serialize_32 panics exactly if an integer does not fit; a file that deserialize_32 reads on a 64-bit platform starts with what serialize_32 writes for the result.", "quantifier": "all prepared graphs, all trailing bytes, both platforms; builds with and without overflow checks (queries on the 32-bit platform: builds with overflow checks)", "why_tests_cant": "depends on every integer of the graph and on the platform", "anchors": ["src/lib.rs: serialize_32, deserialize_32", "src/fast_graph32.rs: FastGraph32"]}
{"id": "C47", "title": "The 32-bit form takes half of the space", "statement": "A file written by serialize_32 has 40 + 4k bytes where the plain file has 40 + 8k, k being the number of stored integers.", "quantifier": "all graphs", "why_tests_cant": "a formula for all sizes", "anchors": ["src/lib.rs: serialize_32 (doc comment)", "src/lib.rs: save_to_disk32"]}
{"id": "C48", "title": "Files of another platform are loaded exactly or rejected", "statement": "A plain file written on one platform and loaded on another gives the same graph or the error 'integer out of range', never a truncated one; a prepared graph with an edge written on 64 bits is always rejected on 32 bits.", "quantifier": "all pairs of platforms, all graphs; builds with and without overflow checks", "why_tests_cant": "needs the other platform and all values", "anchors": ["src/fast_graph.rs: derive(Deserialize)", "src/lib.rs: deserialize_32 (doc comment)"]}
{"id": "C49", "title": "A file that can be loaded is safe to query", "statement": "No query for existing nodes on a graph loaded from any file panics, and loading never panics. (False: loading does not validate.)", "quantifier": "all byte sequences; builds with and without overflow checks", "why_tests_cant": "the set of files is unbounded", "anchors": ["src/lib.rs: load_from_disk, deserialize_32", "src/path_calculator.rs: PathCalculator::calc_path"]}
{"id": "C50", "title": "The printed code rebuilds the graph", "statement": "The text returned by unit_test_output_string (also the Debug output) is a sequence of statements g.add_edge(from, to, weight); that can be read in one way only. Running them on a new graph, followed by freeze if the graph was frozen, gives exactly the graph that was printed.", "quantifier": "all call histories of an input graph, frozen or not, all ids and weights of the type", "why_tests_cant": "must hold for every graph and for the decimal text of every number", "anchors": ["src/input_graph.rs: InputGraph::unit_test_output_string, Edge::unit_test_output_string, Debug for InputGraph"]}
{"id": "C51", "title": "A query with several sources and targets is the minimum of single queries", "statement": "For every prepared graph: calc_path_multiple_sources_and_targets(S,T) is at most a + calc_path(s,t) + b for every (s,a) in S and (t,b) in T for which this sum is below WEIGHT_MAX, and equals this sum for the end points it returns; repeating or reordering the entries of S and T does not change the weight, and adding entries never increases it.", "quantifier": "all graphs, preparations, source and target lists; builds with overflow checks (for builds without them see C15, C16, C76 and C84)", "why_tests_cant": "all lists, relation between two API functions", "anchors": ["src/lib.rs: calc_path, calc_path_multiple_sources_and_targets", "src/path_calculator.rs: calc_path_multiple_sources_and_targets"]}
{"id": "C52", "title": "Reversing all edges reverses all answers", "statement": "If one graph has exactly the edges of another one with from and to exchanged, a query from S to T on the one gives the same weight as the query from T to S on the other.", "quantifier": "all pairs of mutually reversed graphs, all preparations of them, all queries; builds with overflow checks (for builds without them see C15, C16, C76 and C84)", "why_tests_cant": "relation between two different graphs and preparations", "anchors": ["src/path_calculator.rs: calc_path_multiple_sources_and_targets", "src/fast_graph_builder.rs: build"]}
{"id": "C53", "title": "Scaling all weights scales all answers", "statement": "If all weights are multiplied by the same k >= 1, every single answer whose weight times k is below WEIGHT_MAX is multiplied by k, and there are no other answers.", "quantifier": "all graphs, all factors, all preparations and queries; builds with overflow checks (for builds without them see C15, C16, C76 and C84)", "why_tests_cant": "relation between two different graphs", "anchors": ["src/path_calculator.rs", "src/node_contractor.rs"]}
{"id": "C54", "title": "Node numbering does not matter", "statement": "If the nodes of a graph are renamed by any injective function (also with gaps, which add isolated nodes), the answers for renamed sources and targets have the same weight.", "quantifier": "all graphs, injective renamings, preparations and queries; builds with overflow checks (for builds without them see C15, C16, C76 and C84)", "why_tests_cant": "all renamings; the contraction order and all tie breaks depend on ids", "anchors": ["src/lib.rs", "src/fast_graph_builder.rs"]}
{"id": "C55", "title": "Size of a prepared graph", "statement": "get_num_out_edges and get_num_in_edges of a prepared graph with n nodes are each at most n(n-1)/2, however many shortcuts were made.", "quantifier": "all graphs and preparations; builds with and without overflow checks (all weights)", "why_tests_cant": "all contraction orders and parameters", "anchors": ["src/fast_graph.rs: get_num_out_edges, get_num_in_edges", "src/preparation_graph.rs: add_or_reduce_edge"]}
{"id": "C56", "title": "No needless shortcuts without search limits", "statement": "If the limits on settled nodes are at least the number of nodes, every edge stored in a prepared graph is an added edge or a shortcut over a middle node m earlier in the node ordering than both ends, replacing two stored edges over m, such that every connection of the two ends among nodes later than m is strictly heavier. With lower limits needless shortcuts can be stored.", "quantifier": "all graphs, orders, parameters with sufficient limits, heaps and queues; builds with overflow checks (for builds without them see C15, C16, C76 and C84)", "why_tests_cant": "minimality ranges over all walks of all graphs; a search that misses a witness still gives correct answers", "anchors": ["src/witness_search.rs: find_max_weight", "src/node_contractor.rs: handle_shortcuts"]}
{"id": "C57", "title": "Preparation without search limits is deterministic", "statement": "If the limits on settled nodes are at least the number of nodes (with default parameters: at most 100 nodes), the prepared graph is exactly the same whatever the limits are and whatever the binary heap does with items of equal weight. With lower limits it can differ.", "quantifier": "all graphs, orders, pairs of parameters with sufficient limits, and pairs of heap implementations; builds with overflow checks (for builds without them see C15, C16, C76 and C84)", "why_tests_cant": "ranges over pairs of heap behaviours; tests run one", "anchors": ["src/witness_search.rs", "src/fast_graph_builder.rs: run_contraction, run_contraction_with_order"]}
{"id": "C58", "title": "Unpacking recursion is bounded by the number of nodes", "statement": "Every edge stored in a prepared graph of n nodes is a shortcut nested at most n-2 deep (uniquely determined, no cycles among shortcuts). Unpacking a shortcut nested k deep takes exactly k+1 nested calls, so the recursion that unpacks a path never nests deeper than n-1 calls. For every n the bound is attained by the chain contracted from one end.", "quantifier": "all graphs, preparations and stored edges; builds with and without overflow checks (all weights)", "why_tests_cant": "depth depends on the contraction order; random test graphs have shallow hierarchies", "anchors": ["src/path_calculator.rs: unpack_fwd, unpack_bwd", "src/fast_graph_builder.rs: finish_contraction"]}
{"id": "C59", "title": "Shortcuts are simple paths when searches are not limited", "statement": "If the limits on settled nodes are at least the number of nodes, every stored edge stands for a unique list of nodes that is a walk of added edges with the stored weight, visits no node twice, and consists of nodes that lie on lightest walks between its ends (even when the stored weight itself is not the lightest). With lower limits a stored shortcut can visit nodes twice.", "quantifier": "all graphs, orders, parameters with sufficient limits, heaps and queues, and all stored edges; builds with overflow checks (for builds without them see C15, C16, C76 and C84)", "why_tests_cant": "tests only see the final shortest paths; a shortcut with a loop is never part of one", "anchors": ["src/node_contractor.rs: handle_shortcuts", "src/witness_search.rs: find_max_weight", "src/path_calculator.rs: unpack_fwd, unpack_bwd"]}
{"id": "C60", "title": "Linear bounds exclude overflow when searches are not limited", "statement": "If the limits on settled nodes are at least the number n of nodes and M bounds the added weights, stored weights are at most (n-1)*M, preparation succeeds if 4*(n-1)*M fits in an integer (and n*n does), and queries succeed if the two largest start and end weights plus 2*(n-1)*(n-1)*M fit. With default parameters, preparation of any graph with up to 100 nodes succeeds if 396*M fits, and with up to 500 nodes if 1996*M fits. Within these bounds the answers of a release build are right as well. Lower limits break this: with a limit of two settled nodes stored weights can grow exponentially with n, so that preparation overflows, and a release build stores wrong weights, within these very bounds.", "quantifier": "all graphs, orders, parameters with sufficient limits, heaps and queues, queries", "why_tests_cant": "overflow depends on weights no test uses", "anchors": ["src/node_contractor.rs: handle_shortcuts", "src/witness_search.rs: find_max_weight", "src/path_calculator.rs: calc_path_multiple_sources_and_targets", "src/fast_graph_builder.rs: Params::default"]}
{"id": "C61", "title": "The ordering of a prepared graph reproduces it", "statement": "If prepare_with_params returns fg, then prepare_with_order_with_params on the same graph with get_node_ordering(fg) and the same limit for contraction returns exactly fg, so that a stored ordering is enough to get the same graph again. With default parameters, where the limits are 500 and 100, this holds for up to 100 nodes, unless sums of weights overflow. With other limits the result can be another graph.", "quantifier": "all graphs, parameters, heaps and priority queues, build modes", "why_tests_cant": "compares two different preparation routines on all inputs; the first one interleaves searches for node priorities whose state must not leak into the contraction", "anchors": ["src/fast_graph_builder.rs: run_contraction, run_contraction_with_order", "src/witness_search.rs: init", "src/lib.rs: prepare_with_order, get_node_ordering"]}
{"id": "C62", "title": "Preparation without search limits is the textbook contraction hierarchy", "statement": "If the limits on settled nodes are at least the number of nodes, prepare_with_params contracts always a node of least priority; the priority is (hierarchy_depth_factor*level + (edge_quotient_factor*shortcuts+1)/(arcs+1))*1000 in f32, where shortcuts and arcs are counted in the graph of the nodes left; after each contraction exactly the neighbors get new levels and priorities. A shortcut of weight w is added exactly where the connection over the contracted node weighs w (less than usize::MAX) and every way around it is longer; it takes the place of an arc between the same nodes. The result stores for each node exactly the arcs it had when it was contracted, and its node ordering is the order of contractions. With a given order the same holds in that order.", "quantifier": "all graphs, orders, parameters (any f32 factors) with sufficient limits, heaps and priority queues; builds with overflow checks (for builds without them see C15, C16, C76 and C84)", "why_tests_cant": "tests only check distances, which are the same for any choice of shortcuts and any order", "anchors": ["src/fast_graph_builder.rs: run_contraction, run_contraction_with_order", "src/node_contractor.rs: handle_shortcuts, calc_relevance, contract_node", "src/preparation_graph.rs: add_or_reduce_edge, disconnect"]}
{"id": "C63", "title": "What the limit of the witness searches can change about the stored edges", "statement": "Whatever max_settled_nodes_contraction is, every stored edge is a connection in the graph whose nodes in between all come earlier in the node ordering than both ends. With limit zero the stored edges (below usize::MAX) are exactly the lightest such connections. For the same node ordering no limit stores more outgoing or incoming edges than limit zero, and every edge stored with some limit is stored with limit zero with the same or a smaller weight. Between other limits the documented 'higher values mean less shortcuts' is no guarantee: there is a graph and an order where limit 2 stores fewer edges than no limit at all.", "quantifier": "all graphs, limits, node orderings, parameters, heaps and priority queues (the last sentence is an existence claim); builds with overflow checks (for builds without them see C15, C16, C76 and C84)", "why_tests_cant": "tests look at distances only, which do not depend on the limit; a comparison over all limits and graphs is unbounded", "anchors": ["src/fast_graph_builder.rs: Params, ParamsWithOrder", "src/node_contractor.rs: handle_shortcuts, contract_node", "src/witness_search.rs: find_max_weight", "src/preparation_graph.rs: add_or_reduce_edge"]}
{"id": "C64", "title": "A panic during a query does not spoil the calculator", "statement": "If a query panics (wrong arguments, an overflow in the middle of the search, a damaged graph) and the caller catches the panic and keeps the PathCalculator, the next query returns exactly what it would have returned without the failed one. All properties of answers (C01-C06, C11, C12, ...) hold for such calculators too.", "quantifier": "all calculators, all histories of queries that return or panic at any point, all graphs and arguments, both build modes", "why_tests_cant": "a panic can happen at any statement of the search, with any labels, flags and heap entries left behind", "anchors": ["src/path_calculator.rs: calc_path_multiple_sources_and_targets, update_node_fwd, update_node_bwd", "src/valid_flags.rs: set_valid, invalidate_all"]}
{"id": "C65", "title": "A panicking InputGraph call changes nothing", "statement": "If a call of add_edge, add_edge_bidir, freeze or a getter panics and the caller catches the panic, the graph is as before the call (unless the edge list has reached its maximal capacity). After any sequence of calls with caught panics the graph equals the one built by the returning calls alone.", "quantifier": "all call sequences, all arguments, both build modes", "why_tests_cant": "unbounded histories with panics at arbitrary places", "anchors": ["src/input_graph.rs: do_add_edge, freeze, thaw, check_frozen"]}
{"id": "C66", "title": "A unique shortest path is the answer", "statement": "If there is exactly one lightest path from source to target (as a list of nodes) and its weight is below WEIGHT_MAX, every query returns precisely this source, target, weight and node list, whichever node ordering, parameters, priority queue behaviour and calculator are used. The same holds for lists of weighted sources and targets.", "quantifier": "all graphs, all preparations, all queries with a unique lightest path; builds with overflow checks (for builds without them see C15, C16, C76 and C84)", "why_tests_cant": "the answer of every preparation and every heap has to be the same for all graphs", "anchors": ["src/path_calculator.rs: calc_path, calc_path_multiple_sources_and_targets", "src/shortest_path.rs: ShortestPath"]}
{"id": "C67", "title": "Answers survive the way through files", "statement": "A graph that is written with to_file or to_dimacs_file, read back, prepared, saved with save_to_disk and loaded with load_from_disk answers queries with the shortest paths of the edges that were added originally. If the preparation succeeds, no other step of this can fail on a device without errors.", "quantifier": "all sequences of calls building a graph, all devices without errors (short writes and interruptions included), all preparations, all queries; the answers in builds with overflow checks (for builds without them see C15, C16, C76 and C84)", "why_tests_cant": "composition over all graphs, devices and preparations", "anchors": ["src/input_graph.rs: to_file, from_file, to_dimacs_file, from_dimacs_file", "src/lib.rs: save_to_disk, load_from_disk, prepare, calc_path"]}
{"id": "C68", "title": "Queries end", "statement": "On every FastGraph, also one read from a damaged or foreign file, in which no shortcut is (over any number of levels) a part of itself, every query ends with an answer or a panic in a debug build; in a release build if moreover the edges go upwards in some numbering of the nodes. All prepared graphs have both properties. Both conditions are needed: there are graphs violating one of them on which a query never ends.", "quantifier": "all FastGraph values, all queries, all calculators, both build modes", "why_tests_cant": "non-termination cannot be observed by running; arbitrary graphs and weights that wrap", "anchors": ["src/path_calculator.rs: calc_path_multiple_sources_and_targets, extract_nodes, unpack_fwd, unpack_bwd"]}
{"id": "C69", "title": "Preparation ends, and release builds stay safe when weights wrap", "statement": "Preparing a frozen graph ends with a result or a panic for all weights, parameters and orders, in builds with and without overflow checks. Without overflow checks the weights cannot make it panic, and on the graphs it returns every proper query returns; a returned node list is a path of added edges from a source to a target, even if its weight is wrong because sums wrapped. Every stored edge is an input edge, or its weight is the sum of the two stored edges it stands for, modulo the range of usize.", "quantifier": "all graphs, all weights including those whose sums do not fit, all parameters and orders, both build modes, all proper queries", "why_tests_cant": "wrapped sums change every comparison of the algorithm; non-termination cannot be observed by running", "anchors": ["src/fast_graph_builder.rs: build, build_with_order", "src/node_contractor.rs: contract_node, handle_shortcuts", "src/witness_search.rs: find_max_weight", "src/path_calculator.rs: calc_path_multiple_sources_and_targets"]}
{"id": "C70", "title": "How answers depend on single edges and weights", "statement": "If edges that are not on the returned path are removed or become heavier, a new preparation answers with the same weight. Edges that no walk from source to target uses have no influence on the answer. If every edge becomes heavier by at most d, an answer becomes heavier by at most d times the number of its edges; if only the edges from one node to another do, by at most d.", "quantifier": "all pairs of graphs related in this way, all preparations of both, all queries; builds with overflow checks (for builds without them see C15, C16, C76 and C84)", "why_tests_cant": "relates two arbitrary graphs and all queries on them", "anchors": ["src/lib.rs: prepare, calc_path", "src/path_calculator.rs: calc_path_multiple_sources_and_targets"]}
{"id": "C71", "title": "Whole sessions: threads, caught panics, interrupted saves and restarts", "statement": "In every history of API calls on any number of input graphs, prepared graphs and calculators, whose calls may alternate between threads, in which panics may be caught, graphs be saved (perhaps incompletely, perhaps over existing files), the process end at any time and files be loaded again: every query that returns gives a best path among the edges that had been added to the graph it stems from when it was prepared; its result is the one calc_path_multiple_sources_and_targets gives for that prepared graph alone; and whatever can be loaded from a file is a completely prepared graph.", "quantifier": "all histories of calls of any length, all interleavings of calls, all crash points while saving, all queries; builds with overflow checks (for builds without them see C15, C16, C76 and C84)", "why_tests_cant": "histories, interleavings and crash points are unbounded", "anchors": ["src/lib.rs: create_calculator (one per thread), prepare, save_to_disk, load_from_disk", "src/path_calculator.rs: PathCalculator", "src/input_graph.rs: InputGraph"]}
{"id": "C72", "title": "Effort of a query", "statement": "A query on a prepared graph settles every node at most once per direction and follows every stored edge at most once per direction; it pops at most one heap item per given end point and followed edge; its stall checks look at most at the stored edges of the popped nodes; it visits only nodes that can be reached from the given end points by climbing to ever greater ranks; and listing the nodes of the returned path takes fewer than two unpacking calls per node, however deeply shortcuts are nested.", "quantifier": "every prepared graph, calculator with any history, heap behaviour, list of sources and targets, and build mode for the path listing", "why_tests_cant": "A test measures the time of a few queries; that no node is settled twice and no edge followed twice must hold for every graph, every tie-break of the heap and every history of the calculator.", "anchors": ["src/path_calculator.rs: PathCalculator::calc_path_multiple_sources_and_targets, is_stallable, extract_nodes", "src/shortest_path.rs: ShortestPath::get_nodes"]}
{"id": "C73", "title": "Effort of a preparation", "statement": "While a graph is prepared, no search for a replacement path settles more nodes than the parameter documented for its purpose allows. Preparing with a given order makes exactly one such search per stored incoming edge of the prepared graph. Preparing with priorities makes exactly one per edge of the input for the first priorities, one per stored incoming edge for the contractions, and at most the number of nodes per stored edge for updated priorities. The number of nodes settled in total is bounded by these counts times the limits.", "quantifier": "every frozen graph, order, parameters, heap and queue behaviour and build mode", "why_tests_cant": "Tests measure the time of a few preparations; that the limits are kept in every search and that the number of searches is fixed by the output must hold for every graph, order and tie-break.", "anchors": ["src/fast_graph_builder.rs: FastGraphBuilder::build_with_params, build_with_order_with_params, Params, ParamsWithOrder", "src/node_contractor.rs: handle_shortcuts, contract_node, calc_relevance", "src/witness_search.rs: WitnessSearch::find_max_weight"]}
{"id": "C74", "title": "Searches for replacement paths keep their documented contract", "statement": "In every state a preparation can reach, a search from a node that avoids another node returns a weight with these properties: if it is not the maximum, there is a path to the target that avoids the node and is no heavier; if the target is settled, no such path is lighter; if the weight exceeds the weight limit although the limit of settled nodes is not reached, there is no such path within the weight limit. The limit of settled nodes is kept across all calls that share a start, and never all nodes are settled.", "quantifier": "every frozen graph, every state between the contractions and priority calculations of a preparation, every start, avoided node, target, limits, and every sequence of calls since the start was set; builds with overflow checks (for builds without them see C15, C16, C76 and C84)", "why_tests_cant": "The search tree is reused between calls with other limits and targets; that a stop for one target leaves the tree right for the next must hold for all call sequences, ties and graphs.", "anchors": ["src/witness_search.rs: WitnessSearch::init, find_max_weight", "src/node_contractor.rs: handle_shortcuts"]}
{"id": "C75", "title": "Any stored graph that passes local checks is safe and right", "statement": "A graph may come from anywhere, for example from a file made by another program. If its vectors have the right lengths and order, its ranks are a permutation, every edge climbs, and every shortcut stands for two stored edges with its weight, then no proper query fails (apart from the overflow check of a debug build) and every returned path consists of plain stored edges. If in addition every incoming and outgoing edge stored at the same node are bridged by a connection above that node that is no longer, then every answer is right for the graph of the plain edges. For graphs with moderate weights this last check is also necessary: without it some answer misses a shorter path. Every prepared graph passes all of these checks.", "quantifier": "every value of the graph type (prepared, loaded from any bytes, or made by other means), every list of sources and targets, calculator with any history and heap behaviour", "why_tests_cant": "The checks are local but the claim is about all paths and all queries; a test can only try some graphs and some queries.", "anchors": ["src/fast_graph.rs: FastGraph, FastGraphEdge", "src/path_calculator.rs: PathCalculator::calc_path_multiple_sources_and_targets", "src/lib.rs: calc_path"]}
{"id": "C76", "title": "Builds with and without overflow checks differ only by overflow", "statement": "With ids below usize::MAX, both builds make the same graph of the same calls. Within bounds on the weights, every preparation and every query (also one with invalid arguments) has the same outcome in both builds, whatever the calculators were used for before. Files are written alike, and what a checked build reads, an unchecked build reads alike. Beyond the bounds an unchecked build still returns from every preparation unless a vector gets too long, rejects invalid orders, lets orderings be reused, panics rather than prepare a graph whose node count wrapped, and in whole sessions every proper query returns, with a path of added edges if any.", "quantifier": "all calls building a graph, all parameters and orders, all queries, all weights for the second half, all histories of sessions", "why_tests_cant": "tests run one build, and the absence of a difference is a statement about all inputs and both builds", "anchors": ["Cargo.toml (profiles)", "src/input_graph.rs: add_edge", "src/fast_graph_builder.rs: build, build_with_order", "src/node_contractor.rs: contract_node", "src/path_calculator.rs: calc_path_multiple_sources_and_targets", "src/fast_graph32.rs: convert_to_usize"]}
{"id": "C77", "title": "The randomized tests can only fail by their statistics", "statement": "InputGraph::random returns a frozen graph with exactly the requested number of added edges, drawn from the stream of random numbers with loops left out; every such graph is drawn from some stream. For every stream, the two randomized tests of the crate either still draw edges, pass, or panic because they counted too many pairs without a path or too many paths that differ from Dijkstra's; the latter only on graphs with several shortest paths between the same nodes. No comparison of Dijkstra, Floyd-Warshall and the fast graph fails and nothing else panics. Both counts can fail although every answer is right.", "quantifier": "all streams of random numbers, all graph sizes up to 100 nodes, any number of edges, queries, sources and targets, all heaps and queues; builds with overflow checks (for builds without them see C15, C16, C76 and C84)", "why_tests_cant": "each run of the tests sees some streams; that no stream makes them fail is a statement about all of them", "anchors": ["src/lib.rs: tests::run_test_on_random_graph", "src/lib.rs: tests::routing_with_multiple_sources_and_targets_on_random_graph", "src/lib.rs: tests::gen_weighted_nodes", "src/input_graph.rs: random, build_random_graph"]}
{"id": "C78", "title": "The expected numbers of the performance tests depend on the input graph only", "statement": "A performance test of the crate, plain or with the ordering of a first preparation, with any parameters, passes exactly if the expected checksum is the sum of the distances of the drawn pairs and the expected number of missing paths is the number of the other pairs in the input graph; otherwise it fails with the message for that number. So all performance tests of a graph with the same expected numbers agree, unless a sum overflows or a vector gets too long.", "quantifier": "all frozen graphs with a node, all parameters, all streams of random numbers, any number of queries, all heaps and queues; builds with overflow checks (for builds without them see C15, C16, C76 and C84)", "why_tests_cant": "the tests use a few maps, each with fixed parameters; independence of the parameters ranges over all of them", "anchors": ["src/lib.rs: tests::run_performance_test", "src/lib.rs: tests::run_performance_test_fixed_ordering", "src/lib.rs: tests::do_run_performance_test", "src/lib.rs: tests::prepare_algo"]}
{"id": "C79", "title": "With limited searches stored weights can grow exponentially, and default parameters overflow", "statement": "However large the limit on settled nodes is chosen, there are graphs and orders for which preparation with that limit does not keep weights small: for all L, all M >= L+4 and every limit of at least two, a graph of 3L+1+limit nodes with weights up to M is stored with a shortcut of weight at least M*2^L between two nodes whose distance is at most L+4. If that weight does not fit in an integer, prepare_with_order_with_params panics by overflow, whatever binary heap is used. With the default parameters of prepare_with_order this happens on a 64 bit platform for a graph of 263 nodes whose weights are at most 1000.", "quantifier": "all limits of at least two, numbers of levels, weights, integer sizes and binary heaps; builds with overflow checks (for builds without them see C15, C16, C76 and C84)", "why_tests_cant": "no finite number of graphs shows that every limit fails for some graph; the random tests use other orders", "anchors": ["src/node_contractor.rs: handle_shortcuts", "src/witness_search.rs: find_max_weight", "src/fast_graph_builder.rs: ParamsWithOrder::default, run_contraction_with_order", "src/lib.rs: prepare_with_order"]}
{"id": "C80", "title": "Call stack of a query", "statement": "A query needs at most as many nested calls as its path has edges: with room for that many it returns exactly what it returns with an unlimited stack, and a shorter stack changes nothing but that the process may abort by stack overflow. On a prepared graph of n nodes room for n-1 nested calls is enough for every query. Less is not: for every n the chain of n nodes contracted from one end overflows in a query from end to end if the stack has room for n-2 nested calls, though the input is valid and no number is large, in builds with and without overflow checks.", "quantifier": "all stack sizes, graphs, calculators, sources, targets, heaps and integer sizes; all numbers of nodes for the chain", "why_tests_cant": "unit tests run on graphs too small to exhaust the stack; the bound ranges over all graphs and the overflow over all sizes", "anchors": ["src/path_calculator.rs: extract_nodes, unpack_fwd, unpack_bwd", "src/lib.rs: calc_path"]}
{"id": "C81", "title": "The edges every preparation stores, and how much the order matters", "statement": "Whatever the parameters, a prepared graph stores an edge from u to v with their distance as weight if all other nodes on shortest paths from u to v come before both in the node ordering; and if the shortest path is unique, only if its inner nodes do. So the order given to prepare_with_order decides the size: on a star of n nodes, with any limit, the order that contracts the hub first stores the maximal number n(n-1)/2 of edges per direction, and the order that contracts it last stores n-1. Both preparations succeed, in every size that fits the platform.", "quantifier": "all frozen graphs, parameters, orders, pairs of nodes, heaps; all star sizes and limits; builds with overflow checks (for builds without them see C15, C16, C76 and C84)", "why_tests_cant": "tests count edges for a few fixed maps; necessity of an edge quantifies over all parameters and heaps and the gap between orders over all sizes", "anchors": ["src/fast_graph_builder.rs: run_contraction, run_contraction_with_order", "src/node_contractor.rs: handle_shortcuts", "src/fast_graph.rs: get_num_out_edges, get_num_in_edges", "src/lib.rs: prepare_with_order_with_params"]}
{"id": "C82", "title": "Higher limits guarantee neither faster queries nor slower preparation", "statement": "The effects documented for the limits on settled nodes (higher values yield faster queries at the cost of a longer preparation) are tendencies, not guarantees. For some graph and order, raising the limit makes the preparation run less than half as many searches that settle less than half as many nodes. For some graph and order, raising the limit so far that it never stops a search makes no query cheaper, and makes some query pop more items and follow more edges.", "quantifier": "a refutation: there are graphs, orders and limits", "why_tests_cant": "a benchmark on some maps shows the tendency; it cannot show that it is no guarantee unless it happens to contain the exceptional graphs", "anchors": ["src/fast_graph_builder.rs: Params, ParamsWithOrder (doc comments)", "src/node_contractor.rs: handle_shortcuts", "src/witness_search.rs: find_max_weight", "src/path_calculator.rs: calc_path"]}
{"id": "C83", "title": "Default parameters and the meaning of the two factors", "statement": "prepare(g) is prepare_with_params(g, p) for the depth factor 0.1 (rounded to the nearest f32), quotient factor 1 and limits of 500, 100 and 500 settled nodes; Params::new sets the quotient factor to 1 and passes everything else on; prepare_with_order is prepare_with_order_with_params with a limit of 100. The documented claim that only the size of the quotient factor relative to the depth factor plays a role is false: doubling both can change the order of contraction and the number of stored edges.", "quantifier": "all input graphs, orders, heaps and queues; all parameters of Params::new; the last claim is a refutation: there are a graph and factors", "why_tests_cant": "tests call the short forms on a few maps and never vary the quotient factor; equality of the results for every graph is a statement about all inputs", "anchors": ["src/fast_graph_builder.rs: Params::new, Params::default, ParamsWithOrder::default, build, build_with_order", "src/node_contractor.rs: calc_relevance", "src/lib.rs: prepare, prepare_with_order"]}
{"id": "C84", "title": "Small stored weights certify a preparation without overflow checks", "statement": "In a release build sums wrap around silently. Whether that happened during a preparation can be checked afterwards on its result: if all weights given to add_edge are at most M, all weights stored in the prepared graph at most X, and 4*X and 2*X+M fit into usize, then no sum wrapped around: a build with overflow checks builds the same input graph and can store the same prepared graph (for prepare_with_order the same call does). If K1+K2+2*(n-1)*X fits as well, every query of the release build with start and end weights up to K1 and K2 returns a walk of minimal total weight, or None only if there is none below usize::MAX.", "quantifier": "all histories of building, all graphs, parameters, orders, heaps and queues, all queries; builds without overflow checks", "why_tests_cant": "tests run small weights in debug builds; that no overflow is hidden behind a result with small weights is a statement about all executions of the preparation", "anchors": ["src/node_contractor.rs: handle_shortcuts", "src/witness_search.rs: find_max_weight", "src/fast_graph_builder.rs: run_contraction, run_contraction_with_order", "src/path_calculator.rs: calc_path_multiple_sources_and_targets"]}
{"id": "C85", "title": "From a 64-bit release build to a 32-bit release build", "statement": "A graph is prepared by a release build on a 64-bit machine, saved in the 32-bit format and loaded by a release build on a 32-bit platform (such as WebAssembly). If the weights given to add_edge are at most 2^63, every value of the prepared graph is below 2^32-1 and the counts of nodes and edges are below 2^31-1, then nothing wrapped around during the preparation, saving and loading succeed, and every query there with start and end weights up to K1 and K2 returns, with a walk of minimal total weight, or None only if there is none below usize::MAX, provided that K1+K2+2*(n-1)*X fits 32 bits, X being the largest stored weight. Without that last condition the claim is false: the answer can be the true weight modulo 2^32.", "quantifier": "all histories of building, all graphs, parameters, orders, heaps and queues, all queries; builds without overflow checks on both platforms", "why_tests_cant": "the tests run on one platform with overflow checks; the claim is about wrapped sums on two platforms for all graphs", "anchors": ["src/fast_graph32.rs: FastGraph32::new, convert_to_usize", "src/lib.rs: serialize_32, deserialize_32", "src/path_calculator.rs: calc_path_multiple_sources_and_targets", "src/node_contractor.rs: handle_shortcuts"]}
{"id": "C86", "title": "The size of integers does not change answers", "statement": "The same calls of add_edge, freeze etc. build the same input graph on a 32-bit and on a 64-bit target (if neither panics; the larger target does not panic if the smaller one does not). Prepared on each target on its own, with whatever orders and parameters, every query reports the same weight on both, unless the weight is not below the WEIGHT_MAX of one of them, where None is returned.", "quantifier": "all sizes of usize, all call histories, orders, parameters, sources and targets with weights; builds with overflow checks", "why_tests_cant": "tests run on one target; they cannot compare all graphs on two", "anchors": ["src/input_graph.rs: InputGraph", "src/constants.rs: WEIGHT_MAX", "src/path_calculator.rs: calc_path_multiple_sources_and_targets"]}
{"id": "C87", "title": "The README's program computes shortest paths", "statement": "Add any list of edges to a new InputGraph, freeze it, prepare it with default parameters and call calc_path, as in the README. In a build with overflow checks this ends, and it returns a shortest path from source to target along the given edges (loops and edges of weight zero are ignored), or None and then there is no path of weight below usize::MAX, or it panics: because of an overflow or the capacity of a vector, or with 'invalid start node' or 'invalid end node' exactly if the node is greater than all nodes of the edges. If all nodes are below 500 and the weights at most a 498002nd of usize::MAX, it returns, and a build without overflow checks returns the same. The same holds for one calculator that answers a list of queries with weighted sources and targets: it returns the right answer to each, or panics with the message for a query that is not allowed. And it holds when the node ordering of one graph is reused to prepare another one: the answer is right for the new edges, and an error is returned exactly if the two graphs do not have the same nodes (or one of the panics above happens). On small inputs (nodes below 500 and weights as above; below 100 for the update, which is its default limit of settled nodes) these two programs return as well, and a build without overflow checks returns the same. A build without overflow checks returns for all weights if a vector can hold the square of the number of nodes, and returned nodes are then a path along the given edges, although its reported weight can be wrong.", "quantifier": "all lists of edges, sources, targets and queries; the priority queues are the array algorithms of std's BinaryHeap and of the crate priority-queue", "why_tests_cant": "tests run single programs", "anchors": ["README.md: Basic usage, Batch-wise calculation, Preparing the graph after changes", "src/lib.rs: prepare", "src/lib.rs: calc_path", "src/input_graph.rs: add_edge", "src/input_graph.rs: freeze", "src/lib.rs: create_calculator", "src/lib.rs: prepare_with_order"]}
{"id": "C88", "title": "The README's program gives the same with a saved graph, also on a 32-bit platform", "statement": "Build a graph from any list of edges, prepare it, save it, load it and call calc_path on the loaded graph: the result is that of calling calc_path on the prepared graph, with the same answers and the same panics, and loading reports no error. If the graph is prepared on a 64-bit platform, saved in the 32-bit form and loaded on a 32-bit platform, and all nodes are below 500 and all weights at most a 498002nd of 2^32-1, then the query returns a shortest path, or None and then there is no path, in builds with or without overflow checks on either side. Without such bounds it can panic, or, without overflow checks, return a wrong weight.", "quantifier": "all lists of edges, sources and targets; the priority queues are the array algorithms of std's BinaryHeap and of the crate priority-queue", "why_tests_cant": "tests save and load single graphs on one platform", "anchors": ["README.md: Serializing the prepared graph", "src/lib.rs: save_to_disk", "src/lib.rs: load_from_disk", "src/lib.rs: serialize_32", "src/lib.rs: deserialize_32", "src/lib.rs: calc_path"]}
{"id": "C89", "title": "from_file reads DIMACS files, with the ids of the file", "statement": "Every file that from_dimacs_file accepts is accepted by from_file too, unless the number of nodes is the largest usize. It then has the same edges with all node ids higher by one, and one node more, and queries between the shifted nodes have the same weights. In the other direction, a file written by to_file is always refused by from_dimacs_file, unless the graph has no edges.", "quantifier": "all file contents; all graphs; all sources and targets", "why_tests_cant": "tests read single files in the format of the function called", "anchors": ["src/input_graph.rs: from_file", "src/input_graph.rs: from_dimacs_file", "src/input_graph.rs: to_file"]}
{"id": "C90", "title": "From a text file to a shortest path", "statement": "Read a graph with from_file or from_dimacs_file, prepare it and call calc_path: the result is a path of least weight along the arcs of the file between the given nodes (for DIMACS files, numbered as in the file), or None and then every path along these arcs weighs at least 2^64-1. The program panics only if a node is beyond all nodes of the file, a sum overflows, there are too many arcs, or the file does not have the format; in the last case always. It does the same as a program that adds the arcs one by one. If all node numbers are below 500 and all weights at most a 498002nd of the largest usize, it does not panic for nodes of the file, in builds with or without overflow checks. In builds without overflow checks it does not panic for any weights, and returned nodes form a path along arcs of the file.", "quantifier": "all file contents, sources and targets; the priority queues are the array algorithms of std's BinaryHeap and of the crate priority-queue", "why_tests_cant": "the performance tests read a few maps", "anchors": ["src/input_graph.rs: from_file", "src/input_graph.rs: from_dimacs_file", "src/lib.rs: prepare", "src/lib.rs: calc_path", "src/lib.rs: run_performance_test"]}
