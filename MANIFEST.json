{
 "claims": [
  {
   "property": "C01",
   "status": "proved",
   "theorems": [
    "C01_views_consistent"
   ],
   "note": "Every finite history (fresh graph; add_node, add_edge one/bidirectional, del_edge, del_node, from_dict, from_list, degree reads) returns normally and all observers agree."
  },
  {
   "property": "C02",
   "status": "proved",
   "theorems": [
    "C02_add_node_effect",
    "C02_add_edge_effect",
    "C02_del_edge_effect",
    "C02_del_node_effect"
   ],
   "note": "Effect and frame of each mutator on every reachable graph."
  },
  {
   "property": "C03",
   "status": "partial",
   "theorems": [
    "C03_degree_read_partial",
    "C03_refuted"
   ],
   "note": "False for absent nodes: in_degree(n) on an absent n creates a defaultdict entry, and nodes(in_degree=0) then lists n (C03_refuted). Proved: reads of present nodes change nothing; reads of absent nodes change only the degree-0 selectors."
  },
  {
   "property": "C04",
   "status": "proved",
   "theorems": [
    "C04_nodes_by_degree",
    "C04_nodes_bad_arguments"
   ],
   "note": "Exact for all histories whose degree reads are of present nodes (necessary, see C03); argument errors covered."
  },
  {
   "property": "C05",
   "status": "proved",
   "theorems": [
    "C05_copy_equal"
   ],
   "note": "Copy is equal, with the same node order, edge order, objects and degrees. Aliasing is not expressible in the functional model (values are immutable)."
  },
  {
   "property": "C06",
   "status": "partial",
   "theorems": [
    "C06_copy3d_partial",
    "C06_refuted"
   ],
   "note": "Refuted: Graph3D.copy drops node objects. Proved: nodes and edges agree, and the copy equals the original iff all node objects are None."
  },
  {
   "property": "C07",
   "status": "proved",
   "theorems": [
    "C07_dict_round_trip"
   ],
   "note": "to_dict and from_dict are exact inverses on nodes, edges and values."
  },
  {
   "property": "C08",
   "status": "proved",
   "theorems": [
    "C08_list_round_trip"
   ],
   "note": "to_list and from_list are exact inverses on nodes, edges and values."
  },
  {
   "property": "C09",
   "status": "proved",
   "theorems": [
    "C09_equality_observational",
    "C09_equality_equivalence"
   ],
   "note": "Equality iff same nodes, objects and edges; equivalence relation."
  },
  {
   "property": "C10",
   "status": "proved",
   "theorems": [
    "C10_subgraph_induced"
   ],
   "note": "Exact induced subgraph, for every node list."
  },
  {
   "property": "C11",
   "status": "proved",
   "theorems": [
    "C11_is_subgraph_exact",
    "C11_is_subgraph_preorder",
    "C11_subgraph_is_subgraph"
   ],
   "note": "Decides inclusion; preorder; subgraph is a subgraph."
  },
  {
   "property": "C12",
   "status": "partial",
   "theorems": [
    "C12_same_path_rotation",
    "C12_same_object",
    "C12_empty_refuted"
   ],
   "note": "Rotation iff for non-empty lists (and identical objects). Refuted for two distinct empty lists."
  },
  {
   "property": "C13",
   "status": "proved",
   "theorems": [
    "C13_has_path_exact",
    "C13_has_path_empty"
   ],
   "note": "Exact for every path."
  },
  {
   "property": "C14",
   "status": "proved",
   "theorems": [
    "C14_edges_along_path",
    "C14_edges_short_path"
   ],
   "note": "Exact, with both error cases."
  },
  {
   "property": "C15",
   "status": "proved",
   "theorems": [
    "C15_is_connected_exact"
   ],
   "note": "Terminates on every reachable graph; True iff a walk of at least one edge exists."
  },
  {
   "property": "C16",
   "status": "proved",
   "theorems": [
    "C16_components_partition"
   ],
   "note": "For every choice function of set.pop()."
  },
  {
   "property": "C17",
   "status": "proved",
   "theorems": [
    "C17_network_size_ball",
    "C17_network_size_bad_node"
   ],
   "note": "For every set iteration order; k >= 0 and k=None."
  },
  {
   "property": "C18",
   "status": "proved",
   "theorems": [
    "C18_bfs_shortest",
    "C18_bfs_bad_nodes"
   ],
   "note": "Terminates, path real, minimal edge count, [] iff unreachable, ValueError for absent endpoints."
  },
  {
   "property": "C19",
   "status": "proved",
   "theorems": [
    "C19_bfs_walk"
   ],
   "note": "Both directions; early stop at end is a prefix of the full walk. The generator is modelled by the list it yields when exhausted."
  },
  {
   "property": "C20",
   "status": "proved",
   "theorems": [
    "C20_degree_of_separation",
    "C20_same_node"
   ],
   "note": "Exact, -1 iff unreachable, 0 for equal nodes."
  },
  {
   "property": "C21",
   "status": "proved",
   "theorems": [
    "C21_dfs_sound_complete",
    "C21_dfs_bad_nodes"
   ],
   "note": "Terminates, simple path iff reachable, None otherwise."
  },
  {
   "property": "C22",
   "status": "proved",
   "theorems": [
    "C22_depth_scan_exact",
    "C22_rejected_frontier_returned"
   ],
   "note": "Exact result set; also shows rejected frontier nodes are returned (README differs)."
  },
  {
   "property": "C23",
   "status": "proved",
   "theorems": [
    "C23_shortest_path_optimal",
    "C23_shortest_path_bad_nodes"
   ],
   "note": "Dijkstra with lazy deletion; integer weights, all >= 0. Termination by (unvisited nodes, queue length)."
  },
  {
   "property": "C24",
   "status": "proved",
   "theorems": [
    "C24_shortest_path_avoids"
   ],
   "note": "All nodes of the answer, endpoints included, are outside S; (inf, []) iff every walk meets S."
  },
  {
   "property": "C25",
   "status": "proved",
   "theorems": [
    "C25_bidirectional_optimal",
    "C25_bidirectional_agrees",
    "C25_bidirectional_avoids"
   ],
   "note": "Proved for avoids=None and for avoids that exclude the endpoints; srt is an arbitrary rearrangement of the edge list."
  },
  {
   "property": "C26",
   "status": "proved",
   "theorems": [
    "C26_cache_transparent"
   ],
   "note": "Any sequence of memoized queries (with and without avoids) on an unmodified graph. Hypothesis: hash() does not map two different avoid sets to one value; endpoints not in avoids (see C27)."
  },
  {
   "property": "C27",
   "status": "partial",
   "theorems": [
    "C27_stale_after_edit_refuted",
    "C27_avoided_endpoint_refuted",
    "C27_hash_collision_refuted",
    "C27_fresh_cache_partial"
   ],
   "note": "Refuted: the cache survives graph edits, ignores avoided endpoints, and trusts hash(avoids). Proved part: with an empty cache and no avoided endpoint the distance agrees with memoize=False."
  },
  {
   "property": "C28",
   "status": "proved",
   "theorems": [
    "C28_distance_from_path_legs",
    "C28_distance_of_walk",
    "C28_empty"
   ],
   "note": "Legs use the edge value when it exists and is non-zero, otherwise the shortest distance. Real walks get their exact length."
  },
  {
   "property": "C29",
   "status": "proved",
   "theorems": [
    "C29_all_pairs_exact",
    "C29_finite_iff_reachable"
   ],
   "note": "Floyd-Warshall with negative edges allowed, no negative cycle; every pair has an entry."
  },
  {
   "property": "C30",
   "status": "proved",
   "theorems": [
    "C30_adjacency_matrix_exact",
    "C30_adjacency_matrix_keys"
   ],
   "note": "Exact for every pair of nodes."
  },
  {
   "property": "C31",
   "status": "proved",
   "theorems": [
    "C31_minsum_exact",
    "C31_minmax_exact",
    "C31_empty_graph"
   ],
   "note": "Exactly the optimal nodes, for edge values without negative cycle; ValueError on the empty graph."
  },
  {
   "property": "C32",
   "status": "partial",
   "theorems": [
    "C32_order_from_last_finite_partial",
    "C32_single_candidate_partial",
    "C32_best_start_refuted"
   ],
   "note": "Refuted: `distance` is never updated, so the LAST node with finite total distance is used (1-2-3 starts at 3, best is 2). Proved: the exact start, the order of the listing for every set order, KeyError when no node reaches all; and the full claim when only one node reaches all."
  },
  {
   "property": "C33",
   "status": "partial",
   "theorems": [
    "C33_forward_partial",
    "C33_reverse_partial",
    "C33_bad_arguments_partial",
    "C33_shortest_refuted"
   ],
   "note": "Refuted: nodes are expanded once (1->2:10, 1->3:1, 3->2:1, 2->4:1 gives 11 for 4, shortest 3). Proved: domain exact, values are real walk lengths (upper bounds), exact when all edges have the same value; argument errors."
  },
  {
   "property": "C34",
   "status": "proved",
   "theorems": [
    "C34_topological_sort"
   ],
   "note": "For every key; valid prefix plus AttributeError on cyclic graphs. The generator is modelled by (list of yields, final exception)."
  },
  {
   "property": "C35",
   "status": "proved",
   "theorems": [
    "C35_has_cycles_exact"
   ],
   "note": "Iff a closed walk with at least one edge exists."
  },
  {
   "property": "C36",
   "status": "partial",
   "theorems": [
    "C36_phase_lines_levels_partial",
    "C36_phase_lines_any_graph_partial",
    "C36_cycle_not_reported_refuted"
   ],
   "note": "Refuted: a cycle that no source leads into is not reported (isolated node plus 1<->2), and the empty graph raises. Proved: levels exact on every non-empty acyclic graph, for every set order, and an exact description of the outcome on every graph."
  },
  {
   "property": "C37",
   "status": "partial",
   "theorems": [
    "C37_sources_exact_partial",
    "C37_sources_other_partial",
    "C37_cycle_refuted"
   ],
   "note": "Refuted: never returns when n is on or behind a cycle. Proved: exact (all strict ancestors) for every other node, ValueError for absent nodes, divergence otherwise."
  },
  {
   "property": "C38",
   "status": "proved",
   "theorems": [
    "C38_critical_path_exact",
    "C38_cyclic_raises"
   ],
   "note": "Integer durations. Earliest/latest dates are the heaviest chains into/out of the task; both schedules respect all dependencies; AttributeError on cyclic graphs."
  },
  {
   "property": "C39",
   "status": "partial",
   "theorems": [
    "C39_slack_partial",
    "C39_raises_refuted"
   ],
   "note": "Refuted: inserted dependencies can close a cycle and critical_path raises AttributeError (8 task counterexample). Proved: terminates; AttributeError is the only exception; any graph returned is as promised."
  },
  {
   "property": "C40",
   "status": "proved",
   "theorems": [
    "C40_all_simple_paths_exact",
    "C40_bad_arguments"
   ],
   "note": "Exact list, each simple path once; terminates; ValueError for absent nodes or s = e."
  },
  {
   "property": "C41",
   "status": "partial",
   "theorems": [
    "C41_all_paths_sound_partial",
    "C41_all_paths_dag_partial",
    "C41_no_exception_partial",
    "C41_raises_refuted",
    "C41_diverges_refuted"
   ],
   "note": "Refuted: IndexError when a fork node has an edge to itself; never returns on 0->9, 0->1, 1<->2. Proved: any returned list is duplicate free and made of real paths; on acyclic graphs it terminates with all paths; no exception without self loops."
  },
  {
   "property": "C42",
   "status": "proved",
   "theorems": [
    "C42_maximum_flow_feasible",
    "C42_bad_nodes",
    "C42_maximum_flow_feasible_floats"
   ],
   "note": "Integer capacities; the float 1/c and the path search are abstract (any search that finds a simple path when there is one; Dijkstra proved to be such a search), so rounding of 1/c does not matter. PropsFlowFloat.v instantiates both with the real thing: 1/c correctly rounded to binary64 and shortest_path over binary64. Total never exceeds any cut."
  },
  {
   "property": "C43",
   "status": "partial",
   "theorems": [
    "C43_blocking_flow_partial",
    "C43_not_maximal_refuted",
    "C43_not_maximal_floats_refuted"
   ],
   "note": "Refuted: no residual edges, so the first path can block (8 node counterexample, 1 instead of 2). Proved: the flow is maximal when it uses everything leaving s or entering e, otherwise it is blocking (every s-e path has a full edge)."
  },
  {
   "property": "C44",
   "status": "partial",
   "theorems": [
    "C44_min_cut_edges_partial",
    "C44_bad_nodes_partial",
    "C44_not_minimal_refuted",
    "C44_not_a_cut_refuted",
    "C44_min_cut_edges_floats_partial"
   ],
   "note": "Refuted: on 0->1->2 both edges are returned; on another graph nothing is returned although the flow is 2. Proved: exact set of returned edges, ValueError for absent nodes, empty for zero flow."
  },
  {
   "property": "C45",
   "status": "proved",
   "theorems": [
    "C45_feasible",
    "C45_negative_costs",
    "C45_bad_capacity"
   ],
   "note": "Total correctness for every sort of the balance and every choice of a nearest supply; the exception case is characterised."
  },
  {
   "property": "C46",
   "status": "partial",
   "theorems": [
    "C46_one_supply_partial",
    "C46_one_demand_partial",
    "C46_not_minimal_refuted",
    "C46_capacity_refuted"
   ],
   "note": "Refuted for two supplies and two demands without capacities (101 instead of 4) and for one supply and one demand with capacities (1003 instead of 22). Proved (duality): minimal without capacities for one supply node or one demand node."
  },
  {
   "property": "C47",
   "status": "partial",
   "theorems": [
    "C47_bipartite_exact_partial",
    "C47_partition_sound_partial",
    "C47_refusal_sound_partial",
    "C47_terminates_partial",
    "C47_directed_refuted",
    "C47_three_colours_refuted"
   ],
   "note": "Refuted: nodes not connected to the first picked node are left out and a neighbour joined by an edge in one direction only is never expanded (directed triangle), and the greedy colouring refuses 3-colourable graphs (triangle with n=3). Proved for every set order: exact for n = 2 on connected graphs with symmetric edges; any partition returned on connected symmetric graphs is proper for every n; refusal is right for n <= 2 on every graph; it always terminates."
  },
  {
   "property": "C48",
   "status": "proved",
   "theorems": [
    "C48_loop_closed",
    "C48_loop_open",
    "C48_bad_nodes"
   ],
   "note": "Both legs are shortest routes (the second avoiding the inner nodes of the first); exact outcome, including ValueError cases."
  },
  {
   "property": "C49",
   "status": "proved",
   "theorems": [
    "C49_solve_tsp",
    "C49_small_optimal",
    "C49_brute_force",
    "C49_no_tour",
    "C49_no_nodes"
   ],
   "note": "proved for every graph with non-negative values (solve_tsp below 7 nodes; brute_force for any number of nodes); the exceptions are characterised too PropsSolve.v restates it at the entry point Graph.solve_tsp."
  },
  {
   "property": "C50",
   "status": "partial",
   "theorems": [
    "C50_solve_tsp_greedy",
    "C50_solve_tsp_2023_partial",
    "C50_solve_tsp_unknown",
    "C50_greedy",
    "C50_greedy_start",
    "C50_2023_partial",
    "C50_2023_small",
    "C50_one_node_refuted",
    "C50_2023_asymmetric_refuted"
   ],
   "note": "tsp_greedy proved for every complete graph of at least two nodes; tsp_2023 proved below 7 nodes (all complete graphs, optimal) and from 7 nodes on for symmetric complete graphs; refuted: on a complete asymmetric graph of 7 nodes tsp_2023 never ends (_opt3 cycles, its counter is never incremented); tsp_greedy refuses one node PropsSolve.v restates it at the entry point Graph.solve_tsp."
  },
  {
   "property": "C51",
   "status": "partial",
   "theorems": [
    "C51_bnb_partial",
    "C51_small_refuted",
    "C51_not_optimal_refuted",
    "C51_assertion_refuted",
    "C51_loop_refuted",
    "C51_solve_tsp_partial"
   ],
   "note": "refuted: no result on 1, 2 (inf, []) and 3 nodes (Exception 'bad logic!'), AssertionError on a symmetric complete graph of 4 nodes, suboptimal tour on a symmetric complete graph of 5 nodes, a node visited twice when the first node has a loop of value 0; proved part: on complete loop-free graphs of at least 4 nodes it ends, and either raises AssertionError or returns a Hamiltonian tour with its exact length PropsSolve.v restates it at the entry point Graph.solve_tsp."
  },
  {
   "property": "C52",
   "status": "proved",
   "theorems": [
    "C52_ap_matching",
    "C52_ap_empty"
   ],
   "note": "Proved for every order of equal values the sort may give (any value-descending permutation) and every supply of fresh names: termination, matching, stability; ValueError without edges."
  },
  {
   "property": "C53",
   "status": "partial",
   "theorems": [
    "C53_ap_half_optimal_partial",
    "C53_ap_input_partial",
    "C53_ap_optimal_refuted",
    "C53_ap_input_refuted"
   ],
   "note": "Both halves refuted on concrete bipartite graphs. True parts: total value at least half that of any matching (nonnegative values); original edges kept and the graph unchanged when there are not more agents than tasks."
  },
  {
   "property": "C54",
   "status": "partial",
   "theorems": [
    "C54_wtap_value",
    "C54_wtap_bounds",
    "C54_wtap_no_weapons_refuted",
    "C54_wtap_refused",
    "C54_wtap_idle_weapon"
   ],
   "note": "Proved for every nonempty weapon list (exact rationals instead of floats): termination, the assignment, the value, the bounds, refused inputs and IndexError for a weapon without targets. Refuted for an empty weapon list: the value returned is the sum of the target values plus one."
  },
  {
   "property": "C55",
   "status": "proved",
   "theorems": [
    "C55_fsm_refines"
   ],
   "note": "Every sequence of calls gives the results and exceptions of a list-of-transitions specification, for states that are not the internal action ids."
  },
  {
   "property": "C56",
   "status": "proved",
   "theorems": [
    "C56_merkle_root_reached",
    "C56_merkle_single_root",
    "C56_root_determines_blocks",
    "C56_same_root_same_blocks",
    "C56_root_determines_blocks_same_number",
    "C56_no_blocks"
   ],
   "note": "H abstract; collision freedom only assumed of the strings hashed in the runs. No assumption at all for reachability of the root."
  },
  {
   "property": "C57",
   "status": "proved",
   "theorems": [
    "C57_hash_depends_on_content",
    "C57_equal_graphs_equal_hash"
   ],
   "note": "sorted() is any function returning an ordered permutation for an antisymmetric order; str and sha256 arbitrary functions."
  },
  {
   "property": "C58",
   "status": "partial",
   "theorems": [
    "C58_flow_hash_outcome_partial",
    "C58_forest_partial",
    "C58_dag_raises_refuted"
   ],
   "note": "Refuted: TypeError (NoneType has no digest) when suppliers are at different depths. Proved: on every DAG it returns, with the exact hashes, or raises TypeError and then some node has two suppliers; never raises on forests."
  },
  {
   "property": "C59",
   "status": "partial",
   "theorems": [
    "C59_solvable_sound_partial",
    "C59_laminar_exact_partial",
    "C59_two_loads_partial",
    "C59_solvable_refuted"
   ],
   "note": "Refuted: the greedy choice can fail although an assignment exists. Proved: True is always right; exact when any two sets of ends are nested or disjoint, and for at most two loads. sorted() any ordering permutation, set.pop() any choice."
  },
  {
   "property": "C60",
   "status": "proved",
   "theorems": [
    "C60_moves_legal"
   ],
   "note": "For every clock, iteration order and sort tie-break; terminates always. Hypotheses: non-negative edge values, distinct load ids, and distinct start locations if synchronous_moves."
  },
  {
   "property": "C61",
   "status": "partial",
   "theorems": [
    "C61_return_on_first_ignored_partial",
    "C61_search_goes_on_refuted"
   ],
   "note": "Refuted: the branch that honours return_on_first is unreachable (a state visited by the other direction is skipped before the test for a match). Proved: the option never changes anything."
  },
  {
   "property": "C62",
   "status": "proved",
   "theorems": [
    "C62_path_to_moves",
    "C62_path_to_moves_empty",
    "C62_synchronous_moves"
   ],
   "note": "For every legal plan: terminates, groups concatenate to the plan, no load twice in a group, and a group only ends where the next move repeats one of its loads. An illegal plan (swap) is shown to diverge. path_to_moves: its moves, one at a time, lead from the first state through all the others to the last; IndexError for an empty path."
  },
  {
   "property": "C63",
   "status": "proved",
   "theorems": [
    "C63_timer_exact",
    "C63_timer_stays",
    "C63_timer_notices",
    "C63_timer_negative"
   ],
   "note": "Exact: call i is True iff some earlier call number divisible by 101 read a clock beyond the limit."
  },
  {
   "property": "C64",
   "status": "proved",
   "theorems": [
    "C64_schedule_permutes",
    "C64_diverges_otherwise"
   ],
   "note": "For every graph with non-negative edge values that contains all nodes involved; schedule diverges exactly if no order of the jobs can be travelled."
  },
  {
   "property": "C65",
   "status": "partial",
   "theorems": [
    "C65_never_finds_refuted",
    "C65_circuit_missed_refuted"
   ],
   "note": "Refuted: Graph.edge never raises KeyError, so the job graph stays empty and [] is returned for every input."
  },
  {
   "property": "C66",
   "status": "proved",
   "theorems": [
    "C66_size",
    "C66_errors",
    "C66_terminates"
   ],
   "note": "The random source is an oracle (any draws within range, any shuffles); nodes and edges non-negative. Size, frame, edge values and exceptions for every source; termination for every source that keeps drawing every cell."
  },
  {
   "property": "C67",
   "status": "proved",
   "theorems": [
    "C67_nearest",
    "C67_bad_n"
   ],
   "note": "Distances in any ordered type; sort() is any function that permutes and orders by distance."
  },
  {
   "property": "C68",
   "status": "partial",
   "theorems": [
    "C68_distance_partial",
    "C68_distance_refuted"
   ],
   "note": "Refuted: distance always adds the closing edge, and return_to_start adds it twice. Proved: the exact value it returns."
  },
  {
   "property": "C69",
   "status": "partial",
   "theorems": [
    "C69_ids_in_use_partial",
    "C69_int_states_refuted"
   ],
   "note": "Refuted: with state 0 the state is mistaken for action id 0 (KeyError instead of options). Proved: after n calls of add_transition any hashable states other than the ints 0..n-1 are fine (C55 asks for more: no ints at all)."
  },
  {
   "property": "C70",
   "status": "partial",
   "theorems": [
    "C70_no_digest_pairs_partial",
    "C70_second_preimage_refuted"
   ],
   "note": "Refuted for every hash function: [a, b] and the single block H(a)H(b) have the same root. Proved: if no block is the concatenation of two digests, equal roots mean equal blocks (or a collision)."
  },
  {
   "property": "C71",
   "status": "partial",
   "theorems": [
    "C71_prohibited_respected_partial",
    "C71_prohibited_end_refuted"
   ],
   "note": "Refuted for ends that are themselves prohibited (the reverse search starts there unchecked). Proved when no load has a prohibited end."
  },
  {
   "property": "C72",
   "status": "partial",
   "theorems": [
    "C72_no_solution_exact_partial",
    "C72_complete_partial",
    "C72_unsolvable_refuted"
   ],
   "note": "Refuted: check_user_input raises UnSolvable on overlapping sets of ends because is_ap_solvable is greedy. Proved: NoSolution is exact, and a plan is always found if there are at most two loads or the sets of ends are pairwise nested or disjoint."
  },
  {
   "property": "C73",
   "status": "partial",
   "theorems": [
    "C73_short_plans_partial",
    "C73_not_shortest_refuted"
   ],
   "note": "Refuted with one load: an edge from a backward-only to a forward-only state is never recorded (plan of 23 where 6 is possible). Proved: the plan returned is at most as long as every plan of up to three moves, and of up to four moves when every load has one end; for every order of sets and ties."
  },
  {
   "property": "C74",
   "status": "partial",
   "theorems": [
    "C74_schedule_shortest_partial",
    "C74_not_shortest_refuted"
   ],
   "note": "Refuted when an edge is longer than a way round (a connecting leg that happens to be a job is scheduled early). Proved for graphs in which every edge is a shortest path."
  },
  {
   "property": "C75",
   "status": "proved",
   "theorems": [
    "C75_find_sections",
    "C75_find_total",
    "C75_find_accepts",
    "C75_find_refuses"
   ],
   "note": "Exact result and termination; unreachable jobs and jobs without a stop raise IndexError."
  },
  {
   "property": "C76",
   "status": "partial",
   "theorems": [
    "C76_wtap_local_optimum_partial",
    "C76_wtap_last_weapon_partial",
    "C76_wtap_local_optimum_refuted"
   ],
   "note": "Refuted by a 3x3 instance (a tie broken during the last pass makes another move profitable: 1 returned, 0 reachable by one move). True parts: without ties it is a local optimum; the last weapon in the list is always on a best target."
  },
  {
   "property": "C77",
   "status": "partial",
   "theorems": [
    "C77_all_reachable_partial",
    "C77_raises_refuted"
   ],
   "note": "Refuted: the nearest supply may be used up for a demand another supply could have met, and the function raises 'bad logic'. Proved: without capacities and with every demand reachable from every supply it returns a flow with all demand met or all supply used up."
  },
  {
   "property": "C78",
   "status": "proved",
   "theorems": [
    "C78_every_graph_reachable",
    "C78_others_untouched",
    "C78_call_effect",
    "C78_copy_effect",
    "C78_to_dict_effect",
    "C78_from_dict_effect",
    "C78_dicts_untouched",
    "C78_every_dict_well_formed"
   ],
   "note": "Heap model with object identity: all of a graph's dicts are heap cells, user programs run with exceptions caught. The invariant is separation: the cells of different graphs and of the user are disjoint."
  },
  {
   "property": "C79",
   "status": "proved",
   "theorems": [
    "C79_state_after_exception",
    "C79_from_list_stops",
    "C79_from_list_accepts",
    "C79_add_edge_rejected",
    "C79_from_dict_effect"
   ],
   "note": "Same heap model: the state after an exception is the heap at the point of the raise. TypeErrors of unhashable nodes and non-numeric values other than collections are outside the model."
  },
  {
   "property": "C80",
   "status": "proved",
   "theorems": [
    "C80_only_positions",
    "C80_add_node_exact",
    "C80_add_edge_exact",
    "C80_from_list_exact",
    "C80_from_dict_exact",
    "C80_pairs_rejected"
   ],
   "note": "Node values are modelled as tuples of numbers/other objects or non-tuples; method dispatch (self.add_node, self.add_edge) goes to Graph3D's methods as in the code."
  },
  {
   "property": "C81",
   "status": "proved",
   "theorems": [
    "C81_distance_total",
    "C81_distance_metric"
   ],
   "note": "Exact arithmetic on rationals; the model computes the square of the distance (the code's value before ** (1/2)), and the triangle inequality is stated through bounds: d12 <= r^2 and d23 <= s^2 imply d13 <= (r+s)^2 for all r, s >= 0. Float rounding is not modelled."
  },
  {
   "property": "C82",
   "status": "partial",
   "theorems": [
    "C82_accepts",
    "C82_edges_drawn_partial",
    "C82_nodes_drawn_partial",
    "C82_nodes_not_lines_refuted"
   ],
   "note": "Refuted for nodes=True (the default): the nodes are plotted with plt.plot(xs, ys), a line through all nodes in insertion order, so lines appear that are no edges. Proved: the checks, and with nodes=False the lines are exactly the edges. Drawing = the list of matplotlib calls."
  },
  {
   "property": "C83",
   "status": "partial",
   "theorems": [
    "C83_accepts",
    "C83_drawn",
    "C83_cube",
    "C83_labels_limits_partial",
    "C83_swaps_four",
    "C83_labels_limits_refuted"
   ],
   "note": "Refuted for the rotations yzx and zxy: labels and limits use the inverse permutation, so an axis is labelled with, and limited by, another coordinate than the one it shows. Proved: acceptance, what is drawn, cube-shaped limits for all rotations, labels and limits for the four rotations that are their own inverse. Coordinates are integers, limits are kept times two."
  },
  {
   "property": "C84",
   "status": "proved",
   "theorems": [
    "C84_constructor",
    "C84_keeps_to_access",
    "C84_schedule",
    "C84_read",
    "C84_system"
   ],
   "note": "Trains are modelled as values: the list returned by schedule is the stored one, and a caller that changes it, or changes the network between calls, is outside the model."
  },
  {
   "property": "C85",
   "status": "partial",
   "theorems": [
    "C85_tsp_refuted",
    "C85_tsp_2023_refuted",
    "C85_assignment_refuted",
    "C85_flow_hash_refuted",
    "C85_slack_refuted",
    "C85_jam_refuted"
   ],
   "note": "Refuted: on a Graph3D, solve_tsp('greedy') never returns, '2023' returns only below 7 nodes, flow_graph_hash raises as soon as a node without predecessor has an edge, critical_path_minimize_for_slack raises or drops the durations, ap_solver raises with more agents than tasks, jam_solver never returns moves. True part: topological_sort, has_cycles, phase_lines, critical_path, loop and minimum_cost_flow (C34, C35, C36, C38, C45, C46, C48, C77 quantify over the class of the graph)."
  },
  {
   "property": "C86",
   "status": "proved",
   "theorems": [
    "C86_shortest_path_rounded",
    "C86_shortest_path_floats",
    "C86_exact_is_C23",
    "C86_nearly_shortest",
    "C86_distance_from_path",
    "C86_distance_from_path_legs"
   ],
   "note": "Proved over any ordered, monotone, inflationary addition and instantiated with the stdlib's SpecFloat binary64 (no axioms, no primitive floats); the integer instance is shown to be the model of C23. C86_distance_from_path_legs covers legs that are not edges (searched, memoised) and unreachable legs (infinity)."
  },
  {
   "property": "C87",
   "status": "partial",
   "theorems": [
    "C87_entry_points_disagree_refuted",
    "C87_bidirectional_reports_other_length_refuted",
    "C87_bidirectional_rounded",
    "C87_bidirectional_floats",
    "C87_searches_near_partial",
    "C87_entry_points_near_partial",
    "C87_integral_agree"
   ],
   "note": "Refuted on 0.1, 0.2, 0.3: shortest_path says 0.6000000000000001, the other two 0.6; the bidirectional search also reports a distance that is not the distance_from_path of its own path. The agreement on exact numbers is C25/C29. The true part: over any commutative monotone addition the bidirectional search returns the sum of its own path added from both ends, and no path has all its such sums smaller; on binary64 all three entry points return the exact distance up to as many roundings as there are nodes (C87_searches_near_partial, C87_entry_points_near_partial); and if the edge values are multiples of a power of two, for instance whole numbers, and the distance is at most 2^53 of these units, all three return the exact distance and the paths are shortest (C87_integral_agree)."
  },
  {
   "property": "C88",
   "status": "proved",
   "theorems": [
    "C88_equal_exact",
    "C88_equivalence",
    "C88_not_equal"
   ],
   "note": "Python's rule (a proper subclass on the right is asked first) is part of the model; classes are any partial order. An example shows that the method __eq__ called directly is not symmetric."
  },
  {
   "property": "C89",
   "status": "proved",
   "theorems": [
    "C89_grid_exact",
    "C89_grid_distance"
   ],
   "note": "Sizes are naturals (a negative range is empty)."
  },
  {
   "property": "C90",
   "status": "partial",
   "theorems": [
    "C90_greedy",
    "C90_2023_partial",
    "C90_2023_refuted"
   ],
   "note": "tsp_greedy: proved. tsp_2023: refuted on a 7-node graph for every choice among least tours: _opt1 counts the closing edge twice, may make the tour longer, and then the greedy start, which a reversal shortens, wins; tsp_greedy is shorter there. The true part: the tour is the greedy start or no reversal and no exchange of parts of two or more nodes shortens it. Below 7 nodes tsp_2023 is optimal (C49)."
  },
  {
   "property": "C91",
   "status": "partial",
   "theorems": [
    "C91_greedy_any",
    "C91_2023_any_partial",
    "C91_greedy_floats",
    "C91_greedy_length_near",
    "C91_2023_floats_refuted",
    "C91_2023_exact",
    "C91_greedy_exact",
    "C91_integers_agree",
    "C91_small_floats"
   ],
   "note": "tsp_greedy: proved for every float graph. tsp_2023: refuted: on the Euclidean distances of 7 points of a grid it never ends, with both ways of summing, since _opt3 stops only when the sum of rounded gains is not negative and its counter is never incremented. True parts: it never raises, and what it returns is a tour with its sum that is not longer than the greedy start (C91_2023_any_partial); on a symmetric graph whose values are multiples of one power of two with 6 n^3 V < 2^53 (whole numbers, halves, ...) it ends and reports the exact length (C91_2023_exact), with the same tour as on ints (C91_integers_agree); below 7 nodes the computed length is least among the tours that begin at the first node (C91_small_floats)."
  },
  {
   "property": "C92",
   "status": "partial",
   "theorems": [
    "C92_selectors",
    "C92_bad_selectors",
    "C92_edge_default",
    "C92_bfs_without_none",
    "C92_shortest_path_without_none",
    "C92_none_refuted"
   ],
   "note": "Proved for every node but None. Refuted for None, which is hashable and accepted by add_node and add_edge: nodes(from_node=None) is every node, edges(from_node=None) every edge, so shortest_path from None reports a distance that is too small along an edge that does not exist, and breadth_first_search reports no path to None. C92_bfs_without_none and C92_shortest_path_without_none: on graphs without the node None, the models with the calls as the code makes them are the models used for C18, C23, C24, which read the selectors directly."
  },
  {
   "property": "C93",
   "status": "partial",
   "theorems": [
    "C93_early_any",
    "C93_cyclic_raises",
    "C93_late_floats",
    "C93_error",
    "C93_multiples_exact",
    "C93_slack_refuted"
   ],
   "note": "Proved: C93_early_any (any arithmetic that keeps the order: floats, integers), C93_late_floats, C93_error (n tasks: earliest times and length off by at most n/2^53 of the length, latest times by 2n/2^53, slack by (3n+1)/2^53, if the length is finite and 3n <= 2^53), C93_multiples_exact, C93_cyclic_raises. Refuted: the last clause. C93_slack_refuted: durations 0.1, 0.4, 0.2, 0.4 in one chain give slacks -2.8e-17, 0, 1.1e-16, 0 and a negative latest_start, so 'slack == 0' does not find the critical path."
  },
  {
   "property": "C94",
   "status": "proved",
   "theorems": [
    "C94_topo_snapshot",
    "C94_topo_independent"
   ],
   "note": "Gen.v models one next() at a time; event_at is the outcome of the i-th call under a schedule gs of graphs."
  },
  {
   "property": "C95",
   "status": "partial",
   "theorems": [
    "C95_bad_nodes",
    "C95_unedited",
    "C95_any_edits",
    "C95_lasting_edges",
    "C95_stops",
    "C95_deleted_node_refuted"
   ],
   "note": "Everything but the last clause is proved. C95_deleted_node_refuted: a node deleted while it waits in the queue is still yielded."
  },
  {
   "property": "C96",
   "status": "partial",
   "theorems": [
    "C96_float_flow_partial",
    "C96_grid_flow",
    "C96_bad_nodes",
    "C96_over_capacity_refuted"
   ],
   "note": "True exactly when all capacities are multiples of one power of two and small enough that sums stay exact (C96_grid_flow). In general (C96_float_flow_partial) every flow is at most the next float after the capacity, and conservation, total and smaller sum hold up to k/2^53 of the amounts compared, k <= 2|E| the number of paths; C96_over_capacity_refuted: two ways into one edge of capacity 0.9 give a total of 0.9000000000000001, over the capacity and not conserved at the node before it. Termination is proved in all cases."
  },
  {
   "property": "C97",
   "status": "partial",
   "theorems": [
    "C97_float_shipment_partial",
    "C97_grid_shipment",
    "C97_rejects",
    "C97_over_capacity_refuted"
   ],
   "note": "Exactly true when all stocks and finite capacities are multiples of one power of two and at most 2^53 times it (C97_grid_shipment: the flows returned are the exact ones wherever they are at most 2^53 times that power). In general (C97_float_shipment_partial) amounts are within k/2^53 of an exact shipment, k <= |E| + |inventory|; supplies are never overdrawn, demands never overfilled, and the loop always ends. C97_over_capacity_refuted: a demand of 0.9000000000000001 is met over a link of capacity 0.9. C97_rejects: the ValueErrors."
  },
  {
   "property": "C98",
   "status": "partial",
   "theorems": [
    "C98_minmax_floats_partial",
    "C98_grid_minmax",
    "C98_minsum_floats_partial",
    "C98_grid_minsum",
    "C98_empty",
    "C98_naive_sum",
    "C98_minsum_ties_refuted"
   ],
   "note": "Exactly true if all edge values are multiples of one power of two and the totals (maxima) are at most 2^53 times it (C98_grid_minsum, C98_grid_minmax). In general only nodes are returned whose exact total (maximum) is least up to 2n (n) roundings, n the number of nodes (C98_minsum_floats_partial, C98_minmax_floats_partial): not partial by lack of proof. C98_minsum_ties_refuted: in a K4 with edge values 0.1, 0.2, 0.3 all four nodes have the same exact total, and minsum returns two of them. C98_naive_sum: sum() from left to right meets the requirements on sum()."
  },
  {
   "property": "C99",
   "status": "partial",
   "theorems": [
    "C99_forward_rounded",
    "C99_reverse_rounded",
    "C99_bad_arguments_partial",
    "C99_forward_floats_partial",
    "C99_reverse_floats_partial",
    "C99_shortest_refuted"
   ],
   "note": "Not partial by lack of proof: C99_shortest_refuted is a graph where node 4 gets 0.8 although shortest_path gives 0.4 (a node is expanded once, before its distance is final, as in C33). What holds (C99_forward_floats_partial, C99_reverse_floats_partial): the nodes are exactly the reachable ones (with early stopping: at least the starts and the reachable ends), each value is what distance_from_path gives for a real walk from a start, is never less than what shortest_path gives, is the exact length of that walk up to one rounding per edge, and is least when all edge values are the same number (least_if_uniform). The _rounded theorems say this for any addition that is ordered, monotone, commutative and never decreases. C99_bad_arguments_partial: the ValueErrors."
  },
  {
   "property": "C100",
   "status": "partial",
   "theorems": [
    "C100_order_from_last_finite_partial",
    "C100_grid_order",
    "C100_empty",
    "C100_best_start_refuted"
   ],
   "note": "Not partial by lack of proof: as in C32 the start is the last node with a finite total, not the best (C100_best_start_refuted: on 1 - 2 - 3 with 0.5 it starts from 3 although minsum gives 2). What holds (C100_order_from_last_finite_partial): the start is the last node whose float total is finite (the totals of the later ones are infinite or overflow), the answer is a permutation of the nodes, ordered by exact distance from the start up to n roundings, n the number of nodes; KeyError exactly if no float total is finite. C100_grid_order: all of it exact if the edge values are multiples of one power of two and the totals are at most 2^53 times it."
  },
  {
   "property": "C101",
   "status": "partial",
   "theorems": [
    "C101_slack_rounded",
    "C101_slack_floats_partial",
    "C101_grid_slack",
    "C101_raises_refuted"
   ],
   "note": "Not partial by lack of proof: as in C39 the inserted dependencies can close a cycle and critical_path then raises AttributeError (C101_raises_refuted). What holds for all floats (C101_slack_floats_partial, for any arithmetic C101_slack_rounded): it terminates, AttributeError is the only exception; a result keeps tasks, durations and dependencies, has no cycle and an equal length; a total slack that critical_path reported for a plan with the same tasks, durations and dependencies (sum() in the order of that schedule) equals the initial one or is less. C101_grid_slack: if the durations are multiples of one power of two and (n+1) times the length is below 2^53 times it, the exact total slack does not increase and length and total slack are exact."
  }
 ]
}