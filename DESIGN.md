# Formal model of easbar/fast_paths in Rocq (Coq 8.16.1)

## 1. How the code is modelled

* Everything is total, executable Gallina over `list`, `N`, `option`, `string` and records. Only the Coq
  standard library is imported.
* `usize` values are `N`. A configuration `cfg = {umax; debug_build}` carries `usize::MAX` (so 32 and 64 bit
  platforms are instances) and whether the build has overflow checks and debug assertions (they are switched
  together). `uadd` and `umul` panic or wrap accordingly. `WEIGHT_MAX`, `INVALID_NODE`, `INVALID_EDGE` are
  `umax`, as in constants.rs.
* A function that can panic returns `res A = Ok a | Panic reason | Diverge`. Index out of bounds, `unwrap`,
  `assert!`, explicit `panic!`, overflow and Vec capacity overflow are distinct panic reasons. `res` has no state for a panic; what a caught panic leaves behind is modelled in `Unwind.v`. Panic messages
  are the literal text of the code, without interpolated values.
* Loops without a syntactic bound run on explicit fuel computed from the input sizes. `Diverge` is the
  out-of-fuel value. Every theorem about termination excludes it.
* `&mut self` methods return the new value. The textually mirrored `*_fwd/*_bwd` functions of
  path_calculator.rs are one definition with a direction argument.
* `std::collections::BinaryHeap` and `priority_queue::PriorityQueue` are records of operations over lists.
  Theorems quantify over all implementations satisfying the stated laws (`heap_laws`, `pq_laws` in Heap.v), and
  concrete instances are given (HeapImpl.v, HeapFacts.v; BinHeap.v is the array algorithm of Rust's std, BinPq.v
  that of the crate priority-queue; both are proved to satisfy the laws, and C87 and C88 are stated for them without oracles).
* f32 arithmetic of `calc_relevance` uses `Coq.Floats.SpecFloat` with prec = 24, emax = 128 (axiom free).
* Files are lists of bytes. Reading and writing go through models of the line reader, of integer parsing and
  formatting and of `BufWriter` over a writer that may fail at any point (Text.v, BufWriter.v, FileIO.v).
* Saving with serde is modelled for bincode 1.3.3, the format of the crate's own save and load functions (Serial.v).

## 2. Files (rocq/theories)

* Model: Base, Heap, ValidFlags, InputGraph, PrepGraph, Witness, Contractor, FastGraph, Builder, ShortestPath,
  PathCalc, Unwind, FastGraph32, Lib, Text, BufWriter, FileIO, Dijkstra, FloydWarshall, Serial, TestOutput,
  HeapImpl, BinHeap, BinPq, RandomTest, PerfTest, UnitTests; Effort and EffortPrep (the same functions with counters), Stack (queries with a
  limited stack). Every definition cites the lines it models.
* Specification, independent of the model's helpers: Spec (walks, distances), SpecGraph (histories of calls on an
  input graph), SpecApi (prepared graphs, calculators, answers), SpecText (file formats), SpecChars (lines, UTF-8 and white space), Spec32, SpecOracle, SpecSerial,
  SpecOutput (printed code), SpecShortcut (needed shortcuts, nesting), SpecOverlay (the textbook procedure), SpecFill (connections over
  earlier nodes), SpecUnwind (calls that returned), SpecSession (sessions), SpecTerm, SpecEffort, SpecEffortPrep, SpecWitness,
  SpecValid (local checks of loaded graphs), SpecSens, SpecRel, SpecRandom, SpecPerf, SpecProgram and SpecSaved (the README's programs), SpecCompat and SpecTextProgram (reading files), and the graph families SpecChain, SpecStar,
  SpecLadder.
* Proofs: `*Facts`, `*Props`, ModeMono, QueryResult, FgOk, FileTrunc.
* Property theorems only, each with `Print Assumptions` and a concrete case beside it: `Prop*.v`.

## 3. Properties: what is modelled and how it is proved

| id | approach |
|---|---|
| C01,C02,C04,C05,C06 | invariant proof of the bidirectional search with stall-on-demand over the invariant of prepared graphs (`fg_ok`) |
| C03 | invariant on parent/inc_edge labels, induction over ranks for unpacking |
| C07,C08,C17 | corollaries: the result is characterised by the input graph alone |
| C09 | direct; every order with valid ids, repeated or not, by an invariant of the lookup of replaced edges; the acceptance of repeated ids is refuted by two witnesses |
| C10 | invariant on ranks during contraction |
| C11,C38 | refinement of ValidFlags to a set of nodes; simulation between two calculator states |
| C12,C13 | weakest-precondition proof that excludes every panic but overflow/capacity and excludes Diverge |
| C14 | same proof with explicit bounds on all sums |
| C15 | monotonicity of every function in the overflow mode (ModeMono) |
| C16 | refuted by a witness; proved for executions without overflow |
| C18-C21,C39 | induction over call histories |
| C22-C25 | executable model of the text formats; round trip by induction; parts of C24 and C25 refuted |
| C26 | BufWriter with write-error schedule; refuted; partial versions proved |
| C27,C28 | direct; C29, C30 refuted, with the largest true versions proved |
| C31,C32,C36 | corollaries of C01-C05 |
| C33 | direct; for `none` in place of a missing path (`PropNone.v`): by C01-C03 |
| C34,C35 | invariant of contraction |
| C37 | models of dijkstra.rs and floyd_warshall.rs; loop invariants for both; agreement with queries; builds without overflow checks by returning the results of builds with them (`OracleRel.v`, `PropOracleRel.v`) |
| C40 | 32-bit conversion of prepared graphs |
| C41,C42 | characterisation of the readers and of what a reader accepts |
| C43 | Dijkstra part and unknown sources proved; unknown targets and reuse of FloydWarshall refuted by witnesses, with the pair that is answered instead; reused FloydWarshall objects are characterised exactly by running the same loop invariant on the graph extended by the paths the object knew (`OracleReuse.v`, `PropReuse.v`) |
| C44-C48 | model of bincode's format; for every type: the reader restores what was written in front of any bytes, and fails on every proper prefix; whatever it accepts starts with what is written for the result (`SerialExt.v`); sizes by induction |
| C49 | refuted by witnesses; proved for saved graphs |
| C50 | grammar of the printed statements, unambiguous by induction; the printed calls are those of the graph's edges, replayed with the invariant of call histories |
| C51-C54 | corollaries of the characterisation of answers (C01, C02, C04, C05): walks of the two graphs or the two pairs of lists are mapped onto each other (`MetaProps.v`) |
| C55 | counting: stored edges are unique per pair of nodes and go up in rank, so there are at most 0+1+...+(n-1) of them |
| C56 | completeness of the witness search: when it gives up because the heap is empty or the limit weight is passed, no path of at most that weight avoids the contracted node; kept as an invariant of the whole contraction (`bmin`, `fg_min`) |
| C57 | relational proof over two runs: the decision "is there a witness" depends only on the graph at the start of the row, so both runs add the same shortcuts in the same order; states equal except for the search |
| C58 | induction over ranks: both edges replaced by a shortcut start at a node of lower rank; exact depth of `unpack` by induction on the nesting; chains of any length by C34, C35 and the form of shortcuts (`SpecChain.v`, `ChainProps.v`, `PropChain.v`) |
| C59 | the middle node of a shortcut is on a lightest path between its ends, and no other node is on lightest paths on both sides of it: otherwise a lighter path would avoid or precede it and the search would have found it; induction over ranks then gives a list without repetition. Counterexample with limit 2 by computation |
| C60 | a list without repetition has at most n-1 edges; the invariant of the contraction loop carries this bound instead of the doubling one of C14; a graph of twelve levels, on each of which a limit of two settled nodes doubles the stored weight, shows that the limits are needed (`PropLimits.v`) |
| C61 | relational proof: a search behaves the same from every state left by earlier searches (after `init`), priority searches do not change the graph, so the loop does the same contractions as the run over the list of nodes in the order the queue returned them (`ReplayFacts.v`); different limits by C57 |
| C62 | declarative procedure in `SpecOverlay.v` (overlay graphs as relations, shortcuts by "every way around is longer", greedy order with priorities); each row of witness searches decides exactly this when limits are not reached (`OverlayFacts.v`); trace of the loop with levels and priorities as functions, and of the stored arcs through `finish_contraction` (`TraceFacts.v`) |
| C63 | connections over earlier nodes in `SpecFill.v`; every contraction step as a relation between graphs, any limit and limit zero (`FillFacts.v`); invariant over the steps, comparison of two runs and count through distinct (base, adjacent) pairs (`FillProps.v`); the missing monotonicity by a witness |
| C64,C65 | `Unwind.v` models the two mutable types once more, statement by statement, in a monad that keeps the state of a panic; proved to give the same results and states as `PathCalc.v`/`InputGraph.v`, and to keep the invariant of calculators at every statement (`UnwindFacts.v`). `calculator` in `SpecApi.v` includes calculators that survived panics |
| C66,C67 | no new model; compositions of the answer theorems (C01-C05) with C22, C23 and C44 (`PipelineProps.v`, `PropPipeline.v`) |
| C68 | conditions on arbitrary graphs in `SpecTerm.v`; labels only fall, so the sum of all labels and the heap size bound the number of rounds, also with wrapping weights; parents are acyclic because labels (debug) or the numbering (release) fall along them; recursion depth by well-foundedness of nesting (`TermFacts.v`). Infinite runs by induction on the granted steps |
| C69 | no new model; the contraction invariants that do not speak about sizes of weights hold with wrapped sums as well (`RelContract.v`, `RelFacts.v`); with them C68 gives the queries (`RelProps.v`, `PropRel.v`); the form of stored weights is in `SpecRel.v`. `Shape.v`: the part of the invariant of prepared graphs that holds in both builds and for all weights (`fg_shape`); C10, C44, C46, C48, C55, C58, C67 and most of C71 need no more and are proved for both builds |
| C70 | no new model; relations between two graphs stated on their accepted edges (`SpecSens.v`), transported along walks and combined with C01-C05 and C32 (`SensProps.v`, `PropSens.v`) |
| C71 | `SpecSession.v`: a transition system over all objects and files, each noted with the calls it stems from; every event calls the modelled functions. Invariant over events, from C11, C19, C24, C41, C44-C46, C64 and C65 (`SessionProps.v`). Calls are atomic: a calculator is borrowed mutably and a prepared graph is not changed by queries, so Rust excludes other interleavings |
| C72 | `Effort.v`: the functions of `PathCalc.v` again, each also writing down the pops, stall checks, settled nodes, followed edges and unpacking calls; `C72_same_query` shows that without the record it is the same query on all inputs. The counts follow by induction over the main loop together with the invariants of `QueryFacts.v` (`EffortFacts.v`) |
| C73 | `EffortPrep.v`: witness search, contraction, priorities and both preparations again, each also writing down the searches and settled nodes; `C73_same_preparation` shows that without the record it is the same preparation. Counts by induction over both contraction loops (`EffortPrepFacts.v`) |
| C74 | `SpecWitness.v`: the states of graph and search between the steps of a preparation, and paths that avoid a node. From the loop invariant of `WitnessFacts.v`, kept by every call (`WitnessProps.v`) |
| C75 | `SpecValid.v`: the local checks, stated on the stored vectors. They imply the invariant of prepared graphs that all query proofs start from (`FgOk.v`): a path of stored edges is turned into one that climbs and then descends, by removing its lowest nodes rank by rank (`ValidProps.v`); `PropValid.v` also has a graph that shows that the last check is needed |
| C76 | no new model; both builds are one function of `cfg`. Equal outcomes from C14/C60 (a checked run returns) and C15 (then the unchecked run returns the same); outcomes beyond the bounds from the invariants of C69 with only the capacity as a possible panic; sessions from C71 and C69 (`BuildProps.v`, `PropBuild.v`) |
| C77 | `RandomTest.v`: the generator and both randomized tests over an arbitrary stream of numbers. Induction on the rounds of the generator; the tests by induction on the queries from C37 (oracles), C60 (everything returns), C04/C05 and uniqueness (`SpecRandom.v`, `RandomProps.v`, `PropRandom.v`) |
| C78 | `PerfTest.v`: the performance tests without their clocks. Induction on the queries from C12 (returns or overflows), C01/C02 (what is returned), C13 and C10 (preparations return) (`SpecPerf.v`, `PerfProps.v`, `PropPerf.v`) |
| C79 | an invariant of the contraction of one rung of a ladder: limited searches from its sides settle the dead ends first and miss the lighter way round, so both sides get shortcuts over the rung below (`LimitFacts.v` gives sufficient conditions for a limited search to miss or to find a path, for every heap) |
| C80 | the query once more with room for a given number of nested calls of unpack_fwd and unpack_bwd (`Stack.v`); agreement by induction on the room; the overflow by induction on ranks: on the chain both searches can only meet at the last node, reached over the deepest shortcut |
| C81 | from C35's up-and-down paths: if all nodes between u and v are early, such a path has a single edge; with C63 (stored edges are connections over earlier nodes) the sizes of stars by counting pairs |
| C82 | witnesses evaluated on the logging model of C72 and C73: two hubs with eight leaves (preparation), the graph of C63 (all queries) |
| C83 | by definition of the short forms, with the f32 nearest to 1/10 characterised by integer arithmetic; a row of three nodes as witness that the factors cannot be scaled |
| C84 | induction over the order: the arcs of a node are stored before it is contracted, so their weights are at most X and the sums of its contraction at most 4X or 2X+M; hence each step of the checked build returns, with the same state; preparations by priority are reduced to the order they found (C61); queries by C16 |
| C85 | C84 with X = 2^32-1 certifies the preparation; the loaded graph satisfies the invariant of a correct hierarchy on the 32-bit platform (as for C40); its potential argument bounds all sums of a query, so the unchecked build agrees with the checked one; a two-edge graph refutes the claim without the bound |
| C86 | the model's parameter `umax` instantiated twice; runs of the input graph compared step by step, answers by C04 on each target (`PlatformFacts.v`, `PropPlatform.v`) |
| C87 | the README's calls composed into one function, with BinHeap.v and BinPq.v as queues; three programs: one query, a batch with one calculator, an update with the old ordering; corollary of C01-C05, C09, C10, C12, C13, C20, and of C60, C15 for the bounds (`ProgramFacts.v`, `PropProgram.v`) |
| C88 | the README's calls with saving and loading in between, on one platform and from 64 to 32 bits (`SpecSaved.v`); corollary of C44, C60, C55, C15 and the lemmas behind C40/C85 (`SavedFacts.v`, `PropSaved.v`) |
| C89 | reading a DIMACS file with `from_file` (`SpecCompat.v`); every DIMACS text is a plain text with the same arcs, and adding, sorting and removing duplicates commute with adding one to all ids; answers by C54 (`CompatFacts.v`, `PropCompat.v`) |
| C90 | reading a file, preparing and querying as one program (`SpecTextProgram.v`); reading is shown equal to adding the arcs of the text, panics included, then C87; walks in the numbers of a DIMACS file by shifting (`TextProgramFacts.v`, `PropTextProgram.v`); batches and files in release builds with any weights by C69 (`ProgramRelFacts.v`, `PropProgramRel.v`) |

A property whose English statement is false of the code has a theorem with the suffix `_refuted` that proves a
concrete counterexample. The true remainder is proved beside it. Such properties are "partial" in MANIFEST.json.

## 4. Trusted base

* Coq's kernel, including `vm_compute` (used in examples and counterexamples).
* `Print Assumptions` below every property theorem says "Closed under the global context": no axioms at all.
  Some files load the standard library's ssreflect support; its module `Coq.ssr.ssrunder` declares
  module types, which appear in library-wide listings but in no theorem's assumptions.
* Faithfulness of the model, as documented by the citation in each definition. `UnitTests.v` transcribes the unit
  tests of the code with literal inputs and checks by computation that the model passes them all, including those
  that count settled nodes in the order of Rust's binary heap (`BinHeap.v`). It is a test of the model, not a proof.

Modelled: constants.rs, edge handling and (de)serialisation to text in input_graph.rs, preparation_graph.rs,
witness_search.rs, node_contractor.rs, fast_graph.rs, fast_graph32.rs, fast_graph_builder.rs, heap_item.rs,
valid_flags.rs, path_calculator.rs, shortest_path.rs, lib.rs, dijkstra.rs, floyd_warshall.rs; of the test code, the
randomized and the performance tests in lib.rs (without clocks), the generator of random graphs in input_graph.rs and
the unit tests with literal inputs.

Not modelled: memory exhaustion (a Vec may hold up to isize::MAX elements, whatever their size), the size of a stack
frame (`Stack.v` counts the nested calls of the source; a compiler may turn the last call of a function into a jump,
so that fewer frames are live), logging, serde formats other than bincode's default, the test deterministic_result,
timing and performance, threads (a FastGraph is immutable, a calculator is exclusively borrowed).
