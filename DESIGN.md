# Formal model of root-11/graph-theory in Rocq (Coq 8.16.1)

The code in /repo/graph is pure Python over dict-of-dict graphs. The model is a shallow
embedding in Gallina, function by function, with exceptions as values.

## Modelling conventions

* **Nodes** are an arbitrary type `A` with decidable equality (`EqDec A`), standing for "any
  hashable". `None` as a node is excluded in Base.v (the API uses None as
  "argument absent"); Selectors.v (C92) models the calls with `None` as a node.
  Python equality of keys is Leibniz equality (so 1 / 1.0 / True are one node).
* **Dicts** are insertion-ordered association lists (`Prelude.v: dict`), with Python's update-in-place
  /append/delete semantics, so iteration order is modelled exactly.
* **Sets** are duplicate-free lists. Where the code iterates over or pops from a set, the order
  is given by an oracle (`ord`/`pick`) over which the theorems quantify.
* **Numbers**: edge values are arbitrary in `Base.v`; algorithms doing arithmetic use `Z` (Python ints are
  exact); `float('inf')` is a separate constructor `Inf`. Float rounding is
  modelled in separate files over a parameter `arith` (GSp.v, GTsp.v, GCpm.v, PropsFlowFloat.v; Float64.v is IEEE-754 binary64).
* **Exceptions** are values: `Err ValueError` etc. in the type `res`. Type checks (`isinstance`)
  are discharged by Gallina typing and not modelled.
* **Loops** run on explicit fuel; running out gives the distinct value `OutOfFuel`. Every theorem states
  the result is not `OutOfFuel` (termination) or is conditional on `Ok`, which is then said.
* **Mutation** is state passing.

## Trusted base

* Coq's kernel (8.16.1), and `Print Assumptions` output for each property theorem (see the end of this file).
* The reading of the Python source by the author; each definition cites file and lines.
* Python semantics of dict/list/deque/heapq/bisect/sorted as stated in comments.

## Plan per property

| id | property | how |
|---|---|---|
| C01 | Every history of calls keeps all views of a graph consistent | Base.v model of all five redundant indices; invariant `wf` proved by induction over operation lists. |
| C02 | Graph mutators refine an abstract node map and edge map | frame theorems per mutator against the observers node/edge. |
| C03 | Reading a graph does not change it | false (defaultdict read creates an entry): `_refuted` witness; positive part: reading a present node changes nothing. |
| C04 | nodes(in_degree=k) / nodes(out_degree=k) are exact | corollary of the invariant for histories without ghost reads. |
| C05 | copy() equals the original | fold of add_node/add_edge; equality by characterising the result. |
| C06 | Graph3D.copy() equals the original | `_refuted` witness; structure-preservation proved. |
| C07 | to_dict / from_dict round trip | fold characterisation. |
| C08 | to_list / from_list round trip | fold characterisation. |
| C09 | Equality is observational | dict-equality model, extensionality lemma. |
| C10 | subgraph returns the induced subgraph | fold invariant. |
| C11 | is_subgraph decides inclusion | list inclusion. |
| C12 | same_path decides rotation equality | rotation spec; empty case refuted. |
| C13 | has_path is exact | induction on the path. |
| C14 | edges(path=...) returns the edges along the path | induction on the path. |
| C15 | is_connected decides reachability and terminates | fuelled loop with lexicographic measure; invariant. |
| C16 | components partitions the graph into its weakly connected components | loop invariant, oracle for set order. |
| C17 | network_size returns the k-hop ball | level invariant, oracle for set order. |
| C18 | breadth_first_search returns a path with fewest edges | BFS queue invariant (levels). |
| C19 | breadth_first_walk visits each reachable node once in hop order | same invariant. |
| C20 | degree_of_separation is the hop distance | corollary of C18. |
| C21 | depth_first_search is sound and complete | stack invariant (white-path). |
| C22 | depth_scan returns the scanned nodes | same as C21 with predicate. |
| C23 | shortest_path is optimal for non-negative weights | Dijkstra invariant. |
| C24 | shortest_path honours avoids | same invariant with avoid set. |
| C25 | bidirectional search agrees with shortest_path | two-sided invariant. |
| C26 | memoized shortest paths are transparent on an unmodified graph | cache invariant over query histories. |
| C27 | memoized shortest paths reflect the current graph and avoids | `_refuted` witnesses. |
| C28 | distance_from_path sums the legs | induction on the path using C23. |
| C29 | all_pairs_shortest_paths is exact | Floyd-Warshall invariant on intermediate vertex sets. |
| C30 | adjacency_matrix is exact | direct. |
| C31 | minsum and minmax return all optimal centres | from C29. |
| C32 | shortest_tree_all_pairs starts at the best node | `_refuted` + order theorem. |
| C33 | distance_map values are shortest distances | `_refuted` in general; domain/upper bound/uniform-weight theorem. |
| C34 | topological_sort yields a topological order or raises | round invariant; sort function is any permutation. |
| C35 | has_cycles decides cyclicity | from C34. |
| C36 | phase_lines gives the longest-chain level | round invariant; cyclic part refuted. |
| C37 | sources returns all ancestors | exact on DAG; divergence on cycles proved for every fuel. |
| C38 | critical_path computes the project schedule | passes over topological order. |
| C39 | critical_path_minimize_for_slack keeps the project length | preservation; crash witness. |
| C40 | all_simple_paths enumerates exactly the simple paths | enumeration invariant. |
| C41 | all_paths returns real paths and all of them on DAGs | soundness; DAG completeness; IndexError witness. |
| C42 | maximum_flow returns a feasible flow of the reported value | augmentation invariant for any path oracle satisfying C23; PropsFlowFloat.v instantiates it with shortest_path over IEEE-754 binary64 and correctly rounded 1/c. |
| C43 | maximum_flow is maximal | `_refuted`. |
| C44 | maximum_flow_min_cut returns a minimum cut | `_refuted`. |
| C45 | minimum_cost_flow returns a feasible flow with its exact cost or stops at an unextendable one | augmentation invariant (flow, remaining capacities and live links as functions of one partial map; balance list = nodes with something left), measure = live links + entries of the balance. |
| C46 | minimum_cost_flow is cost-minimal | `_refuted` twice; the two true cases by LP duality with shortest distances as potentials; the one-demand case by a nearest-first exchange argument. |
| C47 | is_partite decides n-colourability | `_refuted` in general; proved for connected symmetric graphs and n=2. |
| C48 | loop returns a closed walk through mid | from C23/C02. |
| C49 | brute-force TSP is optimal | Tsp.v models brute_force over itertools.permutations in order; TspFacts proves minimality over all permutations (rotations reduce to those that start at the first node). TspSpec holds the specification. |
| C50 | tsp_greedy and tsp_2023 return Hamiltonian tours with exact length | Tsp.v models _greedy, _opt1, _opt2, _opt3; greedy: segments partition the nodes (TspGreedy); the moves are permutations; _opt2 ends by counting visited permutations (pigeonhole on the Counter), _opt3 by the exact decrease of the tour length on symmetric graphs (TspOpt). Divergence on asymmetric graphs by a closed orbit of states. |
| C51 | tsp_branch_and_bound solves every complete graph | Bnb.v models the queue, bounds and the hit counter with oracles for set order, list.sort and tuple order; ending by a weight of the queue, (n-1)! counts the tours still to be found, so q never runs empty early (BnbFacts). |
| C52 | ap_solver returns a matching taken from the graph | Model: Assign.v (ap_solver with its auction loop). Invariant: the assignments graph is a matching of edges of g, every agent no longer queued is served or all its tasks hold something at least as good; measure: edges still better than what their task holds. |
| C53 | ap_solver is optimal and leaves its input alone | Refuted by computation on 2x2 and 3x2 graphs; half-optimality by charging every edge of another matching to the agent or task that has at least as good an edge. |
| C54 | wtap_solver reports the value of the assignment it returns | Model: Wtap.v. Invariant: the assignments graph holds at most one edge per weapon, an edge of the probability graph; damages = surviving_value of its edge list (permutation invariant); measure: number of values of full assignments below the current one. |
| C55 | FiniteStateMachine follows its transitions | history refinement; int states refuted. |
| C56 | merkle_tree has one root reached from every block | tree invariant with abstract injective hash. |
| C57 | graph_hash depends only on content | sorting canonicity. |
| C58 | flow_graph_hash hashes every DAG | `_refuted`. |
| C59 | is_ap_solvable decides whether loads can be assigned to distinct ends | soundness; completeness refuted. |
| C60 | jam_solver moves are legal and reach the goals | search invariant; timer as oracle. |
| C61 | return_on_first stops the search at the first solution | dead-code theorem. |
| C62 | synchronous moves preserve the sequential plan | simulation invariant; path_to_moves by replaying its moves. |
| C63 | Timer never expires early and stays expired | clock-stream induction. |
| C64 | train schedule is a permutation of the jobs | permutation invariant; divergence witness. |
| C65 | find_perfect_circuit finds circuits | always-empty theorem. |
| C66 | random_xy_graph has the requested size | oracle stream invariant. |
| C67 | n_nearest_neighbours returns the nearest nodes | sorted prefix. |
| C68 | distance(nodes) is the length of the given path | `_refuted` + exact characterisation. |
| C69 | FiniteStateMachine accepts any hashable state | `_refuted` (state 0 is mistaken for an action). |
| C70 | merkle_tree root determines arbitrary blocks | `_refuted` (second preimage for every hash function). |
| C71 | jam_solver never enters a prohibited location | from C60; `_refuted` for prohibited ends. |
| C72 | jam_solver is complete without a time limit | exploration invariant (every edge between expanded states recorded or both sides closed); `_refuted` via C59. |
| C73 | jam_solver returns a shortest plan | `_refuted`; for short plans, the exploration invariant plus what the first round of both searches leaves in the queues shows that every step of the plan is recorded, and the final shortest path search is exact. |
| C74 | train schedule is shortest | subsequence of the optimal path by triangle inequality; `_refuted` in general. |
| C75 | find cuts jobs to the train's stops | from C23. |
| C76 | wtap_solver ends in a local optimum | A pass without improvements leaves the assignment unchanged when no two targets of a weapon tie, hence each weapon was compared against the final assignment; counterexample by computation. |
| C77 | minimum_cost_flow meets the demand whenever it can be met | `_refuted`; true case from C45. |
| C78 | Graphs, copies and dictionaries are independent objects | Heap.v: every statement of the base.py methods executed on a heap of dict cells; a user program (creating graphs, copy, to_dict, from_dict, arbitrary edits and sharing of his dicts). HeapSpec.v reads contents off the heap. Proof: separation invariant (HeapFacts4.v) and, per method, refinement of the value model of Base.v with a frame (HeapFacts2.v, HeapFacts3.v). |
| C79 | A call that raises leaves a consistent graph holding the entries before the failure | Heap.v keeps the heap at the point where a statement raises. Proof: refinement to put_all (the updates up to the first that raises), then a characterisation of the raising calls. |
| C80 | A Graph3D only ever holds (x,y,z) nodes | Graph3d.v: each call maps the graph to the graph left behind and the outcome. Proof: invariant (reachable, all nodes positions, no collection values) over call sequences; refinement of BasicGraph's operations for accepted calls. |
| C81 | Graph3D.distance is a metric | Graph3d.v distance_sq over Qc. Proof: Lagrange's identity for Cauchy-Schwarz, then monotonicity of squaring. |
| C82 | plot_2d draws the edges and nothing else | Plot.v: plot_2d as the list of calls on matplotlib; a call draws the strokes between consecutive points. Proof: case analysis of the checks; edges() by C01. |
| C83 | plot_3d shows, labels and limits the coordinates according to the rotation | Plot.v: plot_3d as the list of calls, with the xyz dict as a dict and KeyErrors. Proof: the six rotations by cases, bounds of min/max; counterexample for yzx. |
| C84 | trains keep to their access nodes | Train.v models the constructor, schedule and schedule_rail_system as functions from the train to the train afterwards and the way the call ends; PropsTrain.v proves the statement by induction over histories, from C64 and C75. Trusted: trains of one list are different objects; the caller does not change the returned list. |
| C85 | methods of Graph on a Graph3D | Base.copy_of is the copy of the object's class; topological_sort, has_cycles, phase_lines, critical_path, loop and minimum_cost_flow take the class as an argument and their theorems hold for both classes. Class3d.v models the other functions on a Graph3D up to the call that raises; PropsClass3d.v proves for all inputs that they raise, with an instance on which the same call on a Graph returns. |
| C86 | shortest_path is exact about floats | GSp.v models shortest_path and distance_from_path over an arbitrary arithmetic; GSpec.v defines left-to-right path sums and the laws; GSpFacts.v redoes the Dijkstra invariant with only monotonicity and inflation; Float64.v proves the laws for SFadd/SFltb of the standard library (integer rounding to 53 bits, ties to even, overflow); relative error of one rounding gives the near-optimality bound. |
| C87 | The shortest path entry points agree on floats | Concrete runs of the generic models of the three functions with binary64 arithmetic, on graphs built by the public operations. GBidirFacts.v redoes the bidirectional invariant with commutative monotone addition and path sums cut at the meeting node; FwFloat.v relates the float and the exact Floyd-Warshall by a relation kept by addition and minimum (relative error, or exact multiples of 2^j); NearFloat.v does so for both searches; PropsFloat2.v states it. |
| C88 | == and != between objects of any classes | Objects.v models __eq__/__ne__ with isinstance and Python's comparison protocol; antisymmetry of issubclass shows that mixed classes always answer False. |
| C89 | grid(x, y) is the x by y grid | loop invariant over the cells done; distance by induction on |dx|+|dy| and on walks. |
| C90 | tsp_greedy and tsp_2023 return locally optimal tours | TspLocal.v: an accepted 2-exchange or 3-exchange move changes the length by exactly the edge comparison, so every accepted move shortens the tour, tours never repeat and the repetition counter never ends the loop; the last pass accepts nothing, and the index ranges of the two loops cover every segment. |
| C91 | The travelling salesman functions on float distances | GTsp.v is tsp.py over any arithmetic (a record of +, -, <, ==, sum, float(maxsize)); GTspFacts.v proves tours and ending of the 2-exchange loop (repetition counter over finitely many tours) from no law at all. PropsTspFloat.v instantiates binary64 and refutes ending of tsp_2023 with a cycle of its loop state. GTspSim.v: a simulation of the integer model by any arithmetic that is exact up to a bound; FloatExact.v: binary64 is, for multiples of one power of two below 2^53; so the integer theorems carry over. |
| C92 | The selectors of nodes() and edges(), for every hashable node | Selectors.v models the calls with None for an argument that was not given, over nodes of type option B, and breadth_first_search and shortest_path through these calls; PropsNone.v relates them to the models of Bfs.v and Sp.v by a simulation whose invariant is that None is never queued. |
| C93 | critical_path with float durations | GCpm.v is critical_path over a parameter `arith` (+, <, 0) and a subtraction; GCpmFacts.v proves for any operations that the returned schedule satisfies the equations of the method, and for operations that keep the order that every value is the extreme value of a chain. FloatSigned.v: addition and subtraction of signed binary64 numbers are the exact result rounded to nearest even (and clamped at infinity), monotone, with relative error 2^-53. CpmFloat.v compares with Cpm (C38) on `exact_plan`, the same plan with every duration as an integer number of 2^-1074. |
| C94 | topological_sort while the graph is edited | Gen.v: the generator as a state machine, one next() per step, with the graph of that moment as an input. topo_schedule (GenFacts.v) simulates the loop of Topo.v; the events are those of the list model on the graph of the first call. C94_topo_independent: two schedules that agree on the first graph give the same events. |
| C95 | breadth_first_walk while the graph is edited | Invariant (run_inv/fin_inv in GenFacts.v) of the suspended generator under any sequence of graphs: visited = yielded ++ queue without duplicates, every entry justified by an earlier one, every neighbour at its turn recorded. |
| C96 | maximum_flow with float capacities | GFlow.v: the function with the number operations as parameters; IEEE binary64 as in SpecFloat, 1/c is SFdiv. FloatStep.v: after f + fl(c - f) the edge is full, or at least half full and exact next time (refill_half, refill_exact, refill_le), so every path takes one of two points off one edge (work) and the loop ends. FlowFloat3.v: books relates the float flow to the exact flow X of the same paths; X is conserved exactly, and each float is within k/2^53 of it. |
| C97 | minimum_cost_flow with float stocks and capacities | GMcf.v: the function with the operations on amounts as parameters (IEEE binary64 as in SpecFloat); costs stay integers. McfFloat2.v: num_inv relates the float books (left stocks, flows, left capacities) to the exact shipment X of the same paths, num_next is one shipment. McfFloat3.v: x - x is exactly 0, so each shipment empties a supply, a demand or a link, which bounds the loop. |
| C98 | minsum and minmax with float edge values | GFw.v: both functions with the operations on edge values and sum() as parameters. FwFloat.v (C87) relates every entry of the table to the exact distance; CentreFloat.v: near_comp, near_sum, near_between carry that through sum and max, gcentre_spec says which nodes are returned. |
| C99 | distance_map with float edge values | GDm.v: the function with the operations on edge values as a parameter; forward adds d1 + d, in reverse d + d2. GDmFacts.v: the invariant of C33 with <= of rounded sums instead of exact values (gdm_loop_spec); no associativity is used. PropsGDm.v ties it to C86. |
| C100 | shortest_tree_all_pairs with float edge values | GTree.v: the function with the operations on edge values and sum() as parameters; dictionaries keyed by numbers compare keys by ==. GTreeFacts.v: on floats that dictionary is the dictionary keyed by exact values (kget_h, kset_h, kdel_h, gtree_loop_h), so the loop of C32 can be reused; FwFloat.v and CentreFloat.v relate distances and totals to the exact ones. |
| C101 | critical_path_minimize_for_slack with float durations | GSlack.v: the function with arithmetic, subtraction and sum() as parameters, on GCpm.v. GSlackFacts.v: the invariant of C39 (gkept) with the length up to == and a measured total slack, kept by every attempt (gtry_spec) and by the purge (gpurge_spec). Grid: error_bounds and multiples_bounds of C93 make the schedules exact, schedule_unique of C39 makes the total independent of the order. |

## Print Assumptions

`theories/Audit.v` runs `Print Assumptions` on every theorem named in MANIFEST.json. The build prints
`Closed under the global context` for each of them: no axiom is used, neither from the standard library nor our own.
No theorem uses functional extensionality, classical logic, proof irrelevance or the axioms of the real numbers.
(The only libraries imported are List, Arith, ZArith, Lia, Bool, Permutation, Sorted, Factorial, Inverse_Image QArith/Qcanon and Floats.SpecFloat from Coq's standard library.)

## What is modelled

| file in /repo/graph | model | remarks |
|---|---|---|
| base.py | Base.v, BaseAlg.v, Selectors.v (the calls of nodes, edges with their arguments, None as a node), Tsp.v (distance), Objects.v (== between classes); the update methods a second time in Heap.v, with object identity | all methods; `__str__`, `__getitem__`, `__setitem__`, `__delitem__` (always ValueError) are not |
| core.py | the file of the function each method of Graph delegates to; Bnb.v (solve_tsp), Sp.v (memoize), Nearest.v, Graph3d.v (Graph3D), Class3d.v (functions called on a Graph3D) | the delegating one-liners themselves are read as the functions they call |
| adjacency_matrix.py, all_pairs_shortest_path.py, minsum.py, minmax.py, shortest_tree_all_pairs.py, distance_map.py | Fw.v, GSp.v (all_pairs with any arithmetic), GFw.v (minsum, minmax with any arithmetic) | |
| all_paths.py, all_simple_paths.py | Paths.v | |
| assignment_problem.py | Assign.v, Wtap.v | floats of wtap are exact rationals |
| bfs.py, degree_of_separation.py | Bfs.v (generators: the list of yields), Gen.v (one next() at a time, the graph may change in between) | |
| dfs.py | Dfs.v | |
| critical_path.py | Cpm.v, GCpm.v (critical_path over floats), GSlack.v (critical_path_minimize_for_slack over floats) | not: Task.__eq__, args, repr |
| cycle.py | Cycle.v, Topo.v | |
| dag.py | Dag.v | |
| finite_state_machine.py | Fsm.v | |
| hash_methods.py | Hash.v | sha256 and str are abstract functions |
| max_flow.py, max_flow_min_cut.py | Flow.v | maximum_flow_min_cut.py is the same code again. The weights 1/c and the search are parameters; PropsFlowFloat.v fills them with correctly rounded binary64 quotients and shortest_path over binary64. GFlow.v: the whole function with binary64 capacities |
| min_cost_flow.py | Mcf.v, GMcf.v (float stocks and capacities, integer costs) | |
| partite.py | Partite.v | |
| random.py | Random.v | random source = oracle; floats of xy_distance abstract |
| shortest_path.py | Sp.v, GSp.v (edge values of any arithmetic) | |
| topological_sort.py | Topo.v, Gen.v (one next() at a time) | |
| traffic_scheduling_problem.py | Traffic.v, Jam.v | 64-bit hash collisions of states not modelled |
| transshipment_problem.py | Rail.v, Train.v | not: the example graph clondike_transshipment_problem |
| tsp.py | Tsp.v, Bnb.v; GTsp.v (the heuristics and brute_force over any arithmetic) | |
| visuals.py | Plot.v | drawing = list of calls on matplotlib; not: the import guard, colours |
| ../examples/graphs.py | Grid.v (grid) | not: the literal tables of london_underground |
| version.py, __init__.py | not modelled | constants, imports |

## What is not modelled anywhere

* Float rounding, NaN, and numbers of other types (edge values in arithmetic are integers, or rationals for wtap), except in GSp.v/Float64.v, where shortest_path, shortest_path_bidirectional, distance_from_path and all_pairs_shortest_paths take IEEE-754 binary64 values (C86, C87), in GFw.v minsum and minmax (C98), PropsFlowFloat.v (C42-C44), GTsp.v (tsp.py, C91), GCpm.v (critical_path, C93), GFlow.v (maximum_flow, C96) and GMcf.v (minimum_cost_flow with float stocks and capacities, C97). Float64.v uses Coq.Floats.SpecFloat, which consists of definitions only (no axioms, no primitive floats).
* isinstance/TypeError checks of argument types; `None` as a node outside Selectors.v.
* Object identity and aliasing of mutable values outside C78/C79 (node objects and edge values are opaque there too); concurrency (the code has none).
* Memory and recursion limits, running time.
* Messages of exceptions: only their class is modelled.
