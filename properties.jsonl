{"id": "C01", "title": "Every history of calls keeps all views of a graph consistent", "statement": "After any finite sequence of add_node, add_edge (one- or bidirectional), del_edge, del_node, from_dict, from_list and degree reads on a fresh graph, no call has raised KeyError, and all observers agree: edge(a,b) and reverse_edge(b,a) give the same value, edges(), edges(from_node), edges(to_node), nodes(from_node), nodes(to_node) list exactly the pairs for which edge(a,b) exists and each only once, both endpoints of every edge are nodes, in_degree/out_degree of every node equal the number of incoming/outgoing edges, and the reported edge count equals len(edges()).", "quantifier": "all finite operation histories over all nodes, objects and values", "why_tests_cant": "the redundant indices can only drift apart after some particular interleaving of inserts, updates and deletions; tests sample a few", "anchors": ["graph/base.py: BasicGraph.add_edge, del_edge, add_node, del_node, nodes, edges, in_degree, out_degree, from_dict, from_list, __str__"]}
{"id": "C02", "title": "Graph mutators refine an abstract node map and edge map", "statement": "Each mutator has exactly its documented effect and no other: add_node(n,o) sets the object of n; add_edge(a,b,v) sets edge (a,b) to v, adds missing endpoints with object None and changes no other edge or node object; del_edge(a,b) removes only edge (a,b) and is a no-op if absent; del_node(n) removes n and exactly the edges incident to n.", "quantifier": "all reachable graphs, all arguments", "why_tests_cant": "frame conditions (what must not change) range over every other node and edge", "anchors": ["graph/base.py: BasicGraph.add_edge, del_edge, add_node, del_node"]}
{"id": "C03", "title": "Reading a graph does not change it", "statement": "Calls to read-only observers (in_degree(n), out_degree(n)) do not change what any later observer returns.", "quantifier": "all graphs, all nodes incl. absent ones, all later observations", "why_tests_cant": "purity must hold for every argument, including nodes that are not in the graph", "anchors": ["graph/base.py: BasicGraph.in_degree, out_degree, nodes, _in_degree, _out_degree (defaultdict)"]}
{"id": "C04", "title": "nodes(in_degree=k) / nodes(out_degree=k) are exact", "statement": "For k >= 0, nodes(in_degree=k) lists, without repetition, exactly the nodes of the graph having k incoming edges, and likewise out_degree; k < 0 and more than one selector raise ValueError.", "quantifier": "all histories without degree reads of absent nodes, all k", "why_tests_cant": "depends on counters kept in sync over arbitrary histories", "anchors": ["graph/base.py: BasicGraph.nodes"]}
{"id": "C05", "title": "copy() equals the original", "statement": "g.copy() == g for every Graph, with the same node objects, node order, edges and values, and correct degrees; the original is unaffected.", "quantifier": "all reachable graphs", "why_tests_cant": "must hold for every graph and every node object", "anchors": ["graph/base.py: BasicGraph.copy, __eq__"]}
{"id": "C06", "title": "Graph3D.copy() equals the original", "statement": "For every Graph3D, copy() == original, node objects included.", "quantifier": "all Graph3D instances", "why_tests_cant": "the loss only shows for nodes carrying objects", "anchors": ["graph/core.py: Graph3D.copy", "graph/base.py: to_dict, from_dict"]}
{"id": "C07", "title": "to_dict / from_dict round trip", "statement": "A graph rebuilt with from_dict(g.to_dict()) has the same nodes and the same edges with the same values; to_dict()[a][b]==v iff edge (a,b)=v and every node is a key.", "quantifier": "all reachable graphs", "why_tests_cant": "unbounded graphs; isolated nodes and sinks are the corner cases", "anchors": ["graph/base.py: to_dict, from_dict"]}
{"id": "C08", "title": "to_list / from_list round trip", "statement": "A graph rebuilt with from_list(g.to_list()) has the same nodes and the same edges with the same values.", "quantifier": "all reachable graphs", "why_tests_cant": "unbounded graphs", "anchors": ["graph/base.py: to_list, from_list"]}
{"id": "C09", "title": "Equality is observational", "statement": "g1 == g2 iff both have the same nodes with equal objects and the same edges with equal values, regardless of the history or insertion order that built them; == is reflexive, symmetric and transitive.", "quantifier": "all pairs of reachable graphs", "why_tests_cant": "quantifies over all pairs of build histories", "anchors": ["graph/base.py: __eq__, __ne__"]}
{"id": "C10", "title": "subgraph returns the induced subgraph", "statement": "subgraph(g, S) contains exactly the nodes of S (with g's objects), and exactly the edges of g with both ends in S, with the same values.", "quantifier": "all reachable graphs and all node lists (repetitions allowed)", "why_tests_cant": "all subsets of all graphs", "anchors": ["graph/base.py: subgraph"]}
{"id": "C11", "title": "is_subgraph decides inclusion", "statement": "is_subgraph(g1,g2) is True iff every node of g1 is a node of g2 and every edge of g1 is an edge of g2 with the same value; it is reflexive and transitive, and subgraph(g,S) with S within g is always a subgraph of g.", "quantifier": "all pairs of reachable graphs", "why_tests_cant": "all pairs of graphs", "anchors": ["graph/base.py: is_subgraph, subgraph"]}
{"id": "C12", "title": "same_path decides rotation equality", "statement": "same_path(p1,p2) is True iff p2 is a rotation of p1.", "quantifier": "all pairs of lists", "why_tests_cant": "every length and offset, repeated nodes, empty list", "anchors": ["graph/base.py: same_path"]}
{"id": "C13", "title": "has_path is exact", "statement": "has_path(p) is True iff every consecutive pair of p is an edge; an empty p raises IndexError.", "quantifier": "all reachable graphs, all lists", "why_tests_cant": "all paths of any length", "anchors": ["graph/base.py: has_path"]}
{"id": "C14", "title": "edges(path=...) returns the edges along the path", "statement": "For a path of at least two nodes whose consecutive pairs are all edges, edges(path) returns those edges with their values in order; it raises KeyError if any is missing and ValueError if the path is shorter.", "quantifier": "all graphs, all paths", "why_tests_cant": "all paths of any length", "anchors": ["graph/base.py: edges"]}
{"id": "C15", "title": "is_connected decides reachability and terminates", "statement": "is_connected(a,b) terminates on every graph and returns True iff there is a walk of at least one edge from a to b.", "quantifier": "all reachable graphs, all node pairs", "why_tests_cant": "termination and both directions of the iff on cyclic graphs of any size", "anchors": ["graph/base.py: is_connected"]}
{"id": "C16", "title": "components partitions the graph into its weakly connected components", "statement": "components() terminates and returns non-empty, pairwise disjoint sets covering all nodes, two nodes being in the same set iff they are linked ignoring edge direction, for every set iteration order.", "quantifier": "all graphs and all set orders", "why_tests_cant": "hash-order nondeterminism and unbounded graphs", "anchors": ["graph/base.py: components"]}
{"id": "C17", "title": "network_size returns the k-hop ball", "statement": "network_size(n,k) terminates and returns exactly the nodes reachable from n in at most k edges (all reachable nodes for k=None), for every set iteration order.", "quantifier": "all graphs, nodes, k and set orders", "why_tests_cant": "hash-order nondeterminism, all depths", "anchors": ["graph/base.py: network_size"]}
{"id": "C18", "title": "breadth_first_search returns a path with fewest edges", "statement": "breadth_first_search(s,e) returns a path from s to e with the minimum number of edges, [] iff e is unreachable, ValueError iff an endpoint is not a node; it terminates.", "quantifier": "all graphs and node pairs", "why_tests_cant": "optimality over all alternative paths", "anchors": ["graph/bfs.py: breadth_first_search"]}
{"id": "C19", "title": "breadth_first_walk visits each reachable node once in hop order", "statement": "breadth_first_walk(s) yields each node reachable from s (reversed_walk: that reaches s) exactly once, in non-decreasing hop distance, starting with s; with end=e it stops at the first yield of e, and otherwise yields the same sequence.", "quantifier": "all graphs, nodes, both directions", "why_tests_cant": "unbounded graphs; ordering property over all pairs of yields", "anchors": ["graph/bfs.py: breadth_first_walk"]}
{"id": "C20", "title": "degree_of_separation is the hop distance", "statement": "degree_of_separation(a,b) is the least number of edges on a path from a to b, 0 for a==b and -1 when unreachable.", "quantifier": "all graphs, all pairs", "why_tests_cant": "minimality over all paths", "anchors": ["graph/degree_of_separation.py: degree_of_separation"]}
{"id": "C21", "title": "depth_first_search is sound and complete", "statement": "depth_first_search(s,e) terminates; it returns a simple path from s to e iff e is reachable, None otherwise.", "quantifier": "all graphs, node pairs", "why_tests_cant": "backtracking correctness on arbitrary cyclic graphs", "anchors": ["graph/dfs.py: depth_first_search"]}
{"id": "C22", "title": "depth_scan returns the scanned nodes", "statement": "depth_scan(s,criteria) returns set() if criteria(s) is False, and otherwise exactly the nodes reachable through nodes satisfying criteria together with the rejected nodes adjacent to them (README claims only nodes where criteria is True).", "quantifier": "all graphs, start nodes and pure criteria", "why_tests_cant": "all graphs and predicates", "anchors": ["graph/dfs.py: depth_scan", "README.md"]}
{"id": "C23", "title": "shortest_path is optimal for non-negative weights", "statement": "shortest_path(s,e) returns (d,p) with p a path from s to e of length exactly d and no path from s to e shorter than d; it returns (inf, []) iff there is no path; it terminates.", "quantifier": "all graphs with non-negative weights, all pairs", "why_tests_cant": "minimality over infinitely many walks", "anchors": ["graph/shortest_path.py: shortest_path"]}
{"id": "C24", "title": "shortest_path honours avoids", "statement": "With avoids=S the returned path contains no node of S and is shortest among the paths that contain no node of S; (inf, []) iff no such path exists.", "quantifier": "all graphs, pairs, sets S", "why_tests_cant": "minimality over all S-avoiding paths", "anchors": ["graph/shortest_path.py: shortest_path"]}
{"id": "C25", "title": "bidirectional search agrees with shortest_path", "statement": "shortest_path_bidirectional(s,e) terminates and returns a real path with its exact length which is minimal, or (inf, []) iff there is none: the same distance as shortest_path.", "quantifier": "all graphs with non-negative weights, all pairs", "why_tests_cant": "pruning and meeting-point logic must be right for every graph", "anchors": ["graph/shortest_path.py: BiDirectionalSearch, shortest_path_bidirectional"]}
{"id": "C26", "title": "memoized shortest paths are transparent on an unmodified graph", "statement": "For any sequence of shortest_path(s,e,memoize=True) calls on a graph that is not modified in between, each answer is a real shortest path with its exact distance, whatever was cached by earlier calls.", "quantifier": "all graphs with non-negative weights, all query histories", "why_tests_cant": "all histories of queries and cached sub-paths", "anchors": ["graph/shortest_path.py: ShortestPathCache", "graph/core.py: Graph.shortest_path"]}
{"id": "C27", "title": "memoized shortest paths reflect the current graph and avoids", "statement": "After the graph is modified, or when avoids changes, shortest_path(..., memoize=True) returns the same distance as memoize=False on the current graph.", "quantifier": "all histories of modifications and queries", "why_tests_cant": "staleness only shows for particular histories; avoids is keyed by its hash", "anchors": ["graph/shortest_path.py: ShortestPathCache", "graph/core.py: Graph.shortest_path"]}
{"id": "C28", "title": "distance_from_path sums the legs", "statement": "distance_from_path(p) is the sum over consecutive pairs of the edge value if the edge exists and is non-zero, else of the shortest-path distance; inf iff some leg has no path.", "quantifier": "all graphs with non-negative weights, all paths", "why_tests_cant": "all lists of any length", "anchors": ["graph/shortest_path.py: distance_from_path"]}
{"id": "C29", "title": "all_pairs_shortest_paths is exact", "statement": "Without negative cycles, all_pairs_shortest_paths()[a][b] is the minimum length over all walks from a to b, and inf iff b is unreachable from a; every pair of nodes has an entry.", "quantifier": "all graphs without negative cycle (negative weights allowed)", "why_tests_cant": "minimality over infinitely many walks", "anchors": ["graph/all_pairs_shortest_path.py", "graph/adjacency_matrix.py"]}
{"id": "C30", "title": "adjacency_matrix is exact", "statement": "adjacency_matrix()[a][b] is 0 for a==b, the edge value if edge (a,b) exists, else inf, for all pairs of nodes.", "quantifier": "all graphs", "why_tests_cant": "all pairs", "anchors": ["graph/adjacency_matrix.py"]}
{"id": "C31", "title": "minsum and minmax return all optimal centres", "statement": "minsum() returns exactly the nodes whose sum of shortest distances is minimal, minmax() exactly those whose largest shortest distance is minimal; both raise ValueError on the empty graph.", "quantifier": "all graphs without negative cycles", "why_tests_cant": "minimality over all nodes", "anchors": ["graph/minsum.py", "graph/minmax.py"]}
{"id": "C32", "title": "shortest_tree_all_pairs starts at the best node", "statement": "shortest_tree_all_pairs() lists all nodes in order of distance from a node minimising the total distance.", "quantifier": "all strongly connected graphs", "why_tests_cant": "minimality over all start nodes", "anchors": ["graph/shortest_tree_all_pairs.py"]}
{"id": "C33", "title": "distance_map values are shortest distances", "statement": "distance_map(starts) maps exactly the nodes reachable from starts to their shortest distance from any start (reverse: to any end).", "quantifier": "all graphs with non-negative weights", "why_tests_cant": "minimality over all walks and all visiting orders", "anchors": ["graph/distance_map.py"]}
{"id": "C34", "title": "topological_sort yields a topological order or raises", "statement": "On an acyclic graph topological_sort(key) yields every node exactly once with every edge pointing forward, for any key; on a cyclic graph it raises AttributeError after yielding a valid prefix.", "quantifier": "all graphs, all sort keys", "why_tests_cant": "all graphs, all tie-breaking orders", "anchors": ["graph/topological_sort.py"]}
{"id": "C35", "title": "has_cycles decides cyclicity", "statement": "has_cycles() is True iff there is a closed walk of at least one edge.", "quantifier": "all graphs", "why_tests_cant": "both directions on all graphs", "anchors": ["graph/cycle.py: has_cycles"]}
{"id": "C36", "title": "phase_lines gives the longest-chain level", "statement": "On an acyclic non-empty graph phase_lines() terminates and maps every node to the length of the longest chain of edges ending in it, for every set order; on a graph with a cycle it raises AttributeError.", "quantifier": "all graphs, all set orders", "why_tests_cant": "longest chain over all chains; cycle detection on all graphs", "anchors": ["graph/dag.py: phase_lines"]}
{"id": "C37", "title": "sources returns all ancestors", "statement": "sources(n) terminates and returns exactly the nodes with a walk to n, other than n.", "quantifier": "all graphs (DAG in the documentation)", "why_tests_cant": "termination and exactness on all graphs", "anchors": ["graph/dag.py: sources"]}
{"id": "C38", "title": "critical_path computes the project schedule", "statement": "On an acyclic graph with non-negative durations: earliest_start of a task is the largest total duration of a chain of its predecessors, the returned length is the largest total duration of any chain, every latest_start is the latest that keeps that length, slack >= 0, and some task has slack 0 iff the graph is non-empty.", "quantifier": "all DAGs and durations", "why_tests_cant": "extremality over all chains", "anchors": ["graph/critical_path.py: critical_path, Task"]}
{"id": "C39", "title": "critical_path_minimize_for_slack keeps the project length", "statement": "On an acyclic graph with numeric durations it terminates without exception and returns a graph containing all the original tasks and dependencies, acyclic, with the same critical path length and no more total slack.", "quantifier": "all DAGs", "why_tests_cant": "the greedy insertion may create a cycle or lengthen the project only for particular graphs", "anchors": ["graph/critical_path.py: critical_path_minimize_for_slack"]}
{"id": "C40", "title": "all_simple_paths enumerates exactly the simple paths", "statement": "all_simple_paths(s,e) terminates and returns every simple path from s to e exactly once and nothing else.", "quantifier": "all graphs, s != e", "why_tests_cant": "completeness over all paths", "anchors": ["graph/all_simple_paths.py"]}
{"id": "C41", "title": "all_paths returns real paths and all of them on DAGs", "statement": "all_paths(s,e) never raises for distinct nodes s,e of the graph; everything it returns is a path from s to e; on an acyclic graph it returns every path from s to e exactly once.", "quantifier": "all graphs, s != e", "why_tests_cant": "completeness over all paths", "anchors": ["graph/all_paths.py"]}
{"id": "C42", "title": "maximum_flow returns a feasible flow of the reported value", "statement": "For non-negative capacities, maximum_flow(s,e) (s != e) terminates and returns a flow graph within capacities, conserved at every node other than s and e, with net flow `total` out of s, so total never exceeds the capacity of any cut.", "quantifier": "all graphs with non-negative integer capacities", "why_tests_cant": "conservation and capacity over all nodes and edges after any number of augmentations", "anchors": ["graph/max_flow.py"]}
{"id": "C43", "title": "maximum_flow is maximal", "statement": "No feasible flow has a larger value than the one returned by maximum_flow.", "quantifier": "all graphs with non-negative capacities", "why_tests_cant": "optimality over all flows", "anchors": ["graph/max_flow.py"]}
{"id": "C44", "title": "maximum_flow_min_cut returns a minimum cut", "statement": "Removing the returned edges disconnects s from e and their total capacity equals the maximum flow.", "quantifier": "all graphs with non-negative capacities", "why_tests_cant": "all paths must be cut", "anchors": ["graph/max_flow_min_cut.py", "graph/maximum_flow_min_cut.py"]}
{"id": "C45", "title": "minimum_cost_flow returns a feasible flow with its exact cost or stops at an unextendable one", "statement": "For non-negative costs, an inventory over nodes of the graph and capacities on the same links (or none), minimum_cost_flow finishes. If it returns, the flow is on existing links, within capacities, ships out of each supply node at most its stock and into each demand node at most its demand, is conserved elsewhere, the cost returned is the sum of flow times unit cost, and all demand is met or all supply is used up. If it raises, no supply node with stock left reaches a certain unmet demand node over links with room left in the flow built. Negative costs, negative capacities or capacities on other links raise ValueError.", "quantifier": "all cost graphs, inventories, capacities (integers or inf)", "why_tests_cant": "feasibility and termination after any number of augmentations", "anchors": ["graph/min_cost_flow.py"]}
{"id": "C46", "title": "minimum_cost_flow is cost-minimal", "statement": "No feasible flow satisfying the same demand is cheaper.", "quantifier": "all inputs", "why_tests_cant": "optimality over all flows", "anchors": ["graph/min_cost_flow.py"]}
{"id": "C47", "title": "is_partite decides n-colourability", "statement": "is_partite(n) returns (True, partitions) with partitions a proper n-colouring of all nodes iff the graph is n-partite, else (False, None).", "quantifier": "all graphs, n >= 1, all set orders", "why_tests_cant": "both directions over all graphs", "anchors": ["graph/partite.py"]}
{"id": "C48", "title": "loop returns a closed walk through mid", "statement": "If both legs exist, loop(start,mid) returns a walk start..mid..start whose return leg shares no inner node with the outward leg; with end given it goes start..mid..end.", "quantifier": "all graphs with non-negative weights", "why_tests_cant": "disjointness over all nodes", "anchors": ["graph/cycle.py: cycle"]}
{"id": "C49", "title": "brute-force TSP is optimal", "statement": "For graphs of fewer than 7 nodes solve_tsp() returns a permutation of the nodes and the least closed-tour length among all permutations.", "quantifier": "all graphs where every tour has finite length", "why_tests_cant": "minimality over all permutations", "anchors": ["graph/tsp.py: brute_force, tsp_2023"]}
{"id": "C50", "title": "tsp_greedy and tsp_2023 return Hamiltonian tours with exact length", "statement": "The returned path visits every node exactly once and the returned number is exactly the length of the closed tour, never longer than the initial greedy tour.", "quantifier": "all complete graphs", "why_tests_cant": "all segment reversals/relocations over all tours", "anchors": ["graph/tsp.py: _greedy, _opt1, _opt2, _opt3, tsp_greedy, tsp_2023"]}
{"id": "C51", "title": "tsp_branch_and_bound solves every complete graph", "statement": "tsp_branch_and_bound returns an optimal Hamiltonian tour on every complete graph with at least two nodes.", "quantifier": "all complete graphs", "why_tests_cant": "optimality over all tours; small sizes", "anchors": ["graph/tsp.py: tsp_branch_and_bound"]}
{"id": "C52", "title": "ap_solver returns a matching taken from the graph", "statement": "ap_solver terminates and returns edges (agent,task,value) of the graph such that no agent and no task occurs twice and no unmatched agent/task pair would both prefer each other (stability).", "quantifier": "all bipartite graphs", "why_tests_cant": "termination and stability over all auction runs", "anchors": ["graph/assignment_problem.py: ap_solver"]}
{"id": "C53", "title": "ap_solver is optimal and leaves its input alone", "statement": "The returned assignment maximises the total value and the graph passed in is unchanged.", "quantifier": "all bipartite graphs", "why_tests_cant": "optimality over all assignments", "anchors": ["graph/assignment_problem.py: ap_solver"]}
{"id": "C54", "title": "wtap_solver reports the value of the assignment it returns", "statement": "wtap_solver returns a value equal to the expected surviving target value of the returned assignment, in which each weapon engages exactly one target it has a probability for; with probabilities in [0,1] and nonnegative values it is between 0 and the sum of the target values.", "quantifier": "all probability graphs and values", "why_tests_cant": "all local-search runs", "anchors": ["graph/assignment_problem.py: wtap_solver, _damages, _get_current_engagement"]}
{"id": "C55", "title": "FiniteStateMachine follows its transitions", "statement": "Provided no state equals an integer that the machine uses internally for its actions: after add_transition calls and set_initial_state, next(a) moves from the current state to the target of the first added transition (current, a, target), raises ValueError if there is none, and StopIteration if the state has no transitions; options() lists the available actions.", "quantifier": "all sequences of transitions, states and actions", "why_tests_cant": "all histories", "anchors": ["graph/finite_state_machine.py"]}
{"id": "C56", "title": "merkle_tree has one root reached from every block", "statement": "For a non-empty list of blocks with collision-free hashes, none of them as long as two digests (128 bytes), every leaf has a path to the single root and the root hash determines all the blocks; among lists with the same number of blocks the root determines the blocks whatever their lengths.", "quantifier": "all block lists", "why_tests_cant": "all sizes, odd and even; injectivity over all pairs of inputs", "anchors": ["graph/hash_methods.py: merkle_tree"]}
{"id": "C57", "title": "graph_hash depends only on content", "statement": "Equal graphs have equal graph_hash whatever the order of insertion.", "quantifier": "all pairs of equal graphs", "why_tests_cant": "all histories", "anchors": ["graph/hash_methods.py: graph_hash"]}
{"id": "C58", "title": "flow_graph_hash hashes every DAG", "statement": "flow_graph_hash(g) does not raise on an acyclic graph and assigns every node a hash.", "quantifier": "all DAGs", "why_tests_cant": "depends on the relative depth of suppliers", "anchors": ["graph/hash_methods.py: flow_graph_hash"]}
{"id": "C59", "title": "is_ap_solvable decides whether loads can be assigned to distinct ends", "statement": "is_ap_solvable(assignments) is True iff there is an injective choice of one end per load.", "quantifier": "all assignments, all set orders", "why_tests_cant": "existence over all choices", "anchors": ["graph/traffic_scheduling_problem.py: is_ap_solvable"]}
{"id": "C60", "title": "jam_solver moves are legal and reach the goals", "statement": "Every move list returned by the traffic jam solver consists of single-load moves along graph edges into free locations that are not prohibited for the load (its own ends excepted), starts in the given positions and ends with every load at one of its ends.", "quantifier": "all graphs, loads and timer behaviours", "why_tests_cant": "all searches of any length, and all time-out points", "anchors": ["graph/traffic_scheduling_problem.py: JamSolver, jam_solver, path_to_moves"]}
{"id": "C61", "title": "return_on_first stops the search at the first solution", "statement": "With return_on_first=True the solver stops as soon as a solution is found.", "quantifier": "all inputs", "why_tests_cant": "reachability of a code path over all executions", "anchors": ["graph/traffic_scheduling_problem.py: JamSolver._match, _find_forward_options, _find_reverse_options"]}
{"id": "C62", "title": "synchronous moves preserve the sequential plan", "statement": "For a legal sequential plan moves_to_synchronous_moves terminates and the concatenation of its groups is the plan in order, each group moving a load at most once. path_to_moves turns a path of states into moves that, done one at a time, lead from its first state to its last.", "quantifier": "all legal plans", "why_tests_cant": "all plans of any length; termination", "anchors": ["graph/traffic_scheduling_problem.py: moves_to_synchronous_moves, path_to_moves"]}
{"id": "C63", "title": "Timer never expires early and stays expired", "statement": "expired() returns True only after a check has seen the limit exceeded, and once True stays True; it checks the clock at least every 101 calls.", "quantifier": "all clock sequences and call histories", "why_tests_cant": "all schedules of calls and clock readings", "anchors": ["graph/traffic_scheduling_problem.py: Timer"]}
{"id": "C64", "title": "train schedule is a permutation of the jobs", "statement": "schedule(graph,start,jobs) returns a rearrangement of jobs when it terminates, and terminates whenever all legs have a path.", "quantifier": "all job lists and graphs", "why_tests_cant": "all permutations", "anchors": ["graph/transshipment_problem.py: schedule, path_from_schedule, jobs_from_path"]}
{"id": "C65", "title": "find_perfect_circuit finds circuits", "statement": "find_perfect_circuit returns a circuit through start made of jobs if there is one.", "quantifier": "all graphs and job lists", "why_tests_cant": "existence over all circuits", "anchors": ["graph/transshipment_problem.py: find_perfect_circuit"]}
{"id": "C66", "title": "random_xy_graph has the requested size", "statement": "For any random source, random_xy_graph(nodes,x_max,y_max,edges) when it returns has exactly `nodes` distinct nodes within the frame and exactly `edges` edges.", "quantifier": "all random streams and sizes", "why_tests_cant": "all random outcomes", "anchors": ["graph/random.py: random_xy_graph"]}
{"id": "C67", "title": "n_nearest_neighbours returns the nearest nodes", "statement": "n_nearest_neighbours(x,n) returns the min(n, others) nodes closest to x in non-decreasing distance, no other node being closer; None if there is no other node.", "quantifier": "all Graph3D, x and n", "why_tests_cant": "minimality over all nodes", "anchors": ["graph/core.py: Graph3D.n_nearest_neighbours"]}
{"id": "C68", "title": "distance(nodes) is the length of the given path", "statement": "BasicGraph.distance(nodes) is the sum of the edges along nodes, plus the closing edge iff return_to_start is True.", "quantifier": "all graphs and node lists", "why_tests_cant": "all lists", "anchors": ["graph/base.py: BasicGraph.distance"]}
{"id": "C69", "title": "FiniteStateMachine accepts any hashable state", "statement": "The machine behaves as in C55 for every hashable state, integers included (the docstring allows any hashable).", "quantifier": "all sequences of transitions over all states", "why_tests_cant": "internal numbering of actions shares the node space with the states", "anchors": ["graph/finite_state_machine.py"]}
{"id": "C70", "title": "merkle_tree root determines arbitrary blocks", "statement": "Two different lists of blocks never have the same Merkle root unless the hash function collides.", "quantifier": "all pairs of block lists of any length", "why_tests_cant": "injectivity over all pairs of inputs", "anchors": ["graph/hash_methods.py: merkle_tree"]}
{"id": "C71", "title": "jam_solver never enters a prohibited location", "statement": "No load is ever moved into a location that is prohibited for it, even if the location is also listed among its ends.", "quantifier": "all graphs, loads and timer behaviours", "why_tests_cant": "all searches of any length", "anchors": ["graph/traffic_scheduling_problem.py: JamSolver._find_reverse_options, _end_state_gen"]}
{"id": "C72", "title": "jam_solver is complete without a time limit", "statement": "Without a timeout, the solver returns a plan whenever a legal plan exists, and raises UnSolvable or NoSolution only if there is none.", "quantifier": "all graphs and loads", "why_tests_cant": "non-existence of plans of any length", "anchors": ["graph/traffic_scheduling_problem.py: jam_solver, check_user_input, JamSolver._search"]}
{"id": "C73", "title": "jam_solver returns a shortest plan", "statement": "With return_on_first=False and no timeout the total distance of the returned plan is minimal among all legal plans.", "quantifier": "all graphs and loads", "why_tests_cant": "minimality over all plans of any length", "anchors": ["graph/traffic_scheduling_problem.py: JamSolver.solve, _search, _match"]}
{"id": "C74", "title": "train schedule is shortest", "statement": "The order of jobs returned by schedule(graph,start,jobs) has the least total travel distance among all orders of the jobs.", "quantifier": "all graphs and job lists", "why_tests_cant": "minimality over all permutations", "anchors": ["graph/transshipment_problem.py: schedule"]}
{"id": "C75", "title": "find cuts jobs to the train's stops", "statement": "find(rail_network, stops, jobs) replaces every job by the first and last stop on a shortest route of the job, where the stops on the route are consecutive in the network; jobs with unknown nodes raise an exception. It accepts the jobs if on every shortest route of every job the stops are consecutive, and refuses them if that holds on no shortest route of some job.", "quantifier": "all graphs, stops and job lists", "why_tests_cant": "all shortest routes", "anchors": ["graph/transshipment_problem.py: find"]}
{"id": "C76", "title": "wtap_solver ends in a local optimum", "statement": "In the assignment wtap_solver returns no single weapon could be moved to another of its targets with a smaller surviving value.", "quantifier": "all probability graphs, weapon lists and target values", "why_tests_cant": "local optimality of the last of any number of greedy passes, with ties", "anchors": ["graph/assignment_problem.py: wtap_solver"]}
{"id": "C77", "title": "minimum_cost_flow meets the demand whenever it can be met", "statement": "If some flow within stocks and capacities meets all demand, minimum_cost_flow returns one (rather than raising).", "quantifier": "all cost graphs, inventories, capacities", "why_tests_cant": "existence of a flow over all flows", "anchors": ["graph/min_cost_flow.py"]}
{"id": "C78", "title": "Graphs, copies and dictionaries are independent objects", "statement": "After any program that creates graphs, copies them, exports them with to_dict, imports dicts with from_dict and edits the dicts it holds (including one dict stored under several keys), calling a method of one graph, or editing a dict, changes no other graph; no graph method changes a dict the user holds; and each call has the effect and the outcome of the operation on the content of that one graph.", "quantifier": "all programs over any number of graphs and dicts, with arbitrary sharing among the dicts; all statements", "why_tests_cant": "aliasing bugs show only for the right sequence of exports, edits and updates; every sequence must be covered", "anchors": ["graph/base.py: BasicGraph.__init__, copy, to_dict, from_dict, add_edge, del_edge, del_node"]}
{"id": "C79", "title": "A call that raises leaves a consistent graph holding the entries before the failure", "statement": "add_edge with a dict, list or tuple as value raises ValueError and changes nothing. from_list and from_dict stop at the first entry that is malformed or has such a value, raise the exception of that entry, and have added exactly the entries before it. No other update raises. The graph left behind satisfies everything that holds of graphs built without exceptions.", "quantifier": "all programs, graphs, lists and dicts, with the bad entry at any position", "why_tests_cant": "the failure may come after any prefix of any list in any state", "anchors": ["graph/base.py: BasicGraph.add_edge, from_list, from_dict"]}
{"id": "C80", "title": "A Graph3D only ever holds (x,y,z) nodes", "statement": "After any sequence of calls on a Graph3D, some of which may have raised, every node and every end of an edge is a tuple of three numbers, and the graph satisfies everything that holds of graphs. add_node and add_edge raise exactly for other nodes (TypeError, ValueError), a missing value (AssertionError) and a collection as value (ValueError), and change nothing then; from_list and from_dict stop at the first rejected entry and have added the entries before it; in particular (n1, n2) entries, which Graph accepts, are rejected.", "quantifier": "all call sequences with arbitrary node values and entries", "why_tests_cant": "must hold after every history, including calls that failed half way", "anchors": ["graph/core.py: Graph3D.add_node, add_edge, _check_tuples", "graph/base.py: BasicGraph.add_edge, from_list, from_dict"]}
{"id": "C81", "title": "Graph3D.distance is a metric", "statement": "distance(a, b) returns for any two (x,y,z) tuples of numbers and raises TypeError or ValueError otherwise. It is non-negative, 0 exactly for equal positions, symmetric, and satisfies the triangle inequality.", "quantifier": "all pairs and triples of positions", "why_tests_cant": "universally quantified over rational coordinates", "anchors": ["graph/core.py: Graph3D.distance, _check_tuples"]}
{"id": "C82", "title": "plot_2d draws the edges and nothing else", "statement": "plot_2d raises ValueError exactly if some node is not a pair (x, y) of numbers; otherwise every line it draws is an edge, drawn from its start to its end, and every edge is drawn once.", "quantifier": "all graphs, both flags", "why_tests_cant": "all node values and all graphs", "anchors": ["graph/visuals.py: plot_2d"]}
{"id": "C83", "title": "plot_3d shows, labels and limits the coordinates according to the rotation", "statement": "plot_3d raises ValueError exactly for a rotation that is not a permutation of xyz (or to keep the aspect ratio of a graph without nodes). It draws one line per edge and one dot per node, with coordinate i on the axis named by the i-th letter; each axis is labelled with the coordinate it shows; and with maintain_aspect_ratio the limits form a cube and contain all nodes.", "quantifier": "all graphs of positions, flags and rotations", "why_tests_cant": "all graphs and all six rotations", "anchors": ["graph/visuals.py: plot_3d", "graph/core.py: Graph3D.plot"]}
{"id": "C84", "title": "trains keep to their access nodes", "statement": "Train(network, location, access) raises AssertionError exactly if the location or an access node is not in the network. Whatever calls of schedule are made and however they end, every job of the stored schedule starts and ends at an access node and can be travelled. schedule(jobs) either raises the exception of find and leaves the stored schedule as it was, or stores and returns an order of the sections of the jobs, or does not return, the last exactly if the sections have no order that can be travelled. schedule_rail_system schedules the trains in order up to the first for which schedule does not return normally, and the trains after it are unchanged.", "quantifier": "all networks with non-negative edge values, access sets, job lists and histories of calls", "why_tests_cant": "all histories of calls on all networks", "anchors": ["graph/transshipment_problem.py: Train, schedule_rail_system, find, schedule"]}
{"id": "C85", "title": "methods of Graph on a Graph3D", "statement": "A Graph3D is a Graph: every method inherited from Graph and every function of the package that takes a Graph gives on a Graph3D the result it gives on a Graph with the same nodes, node objects and edges.", "quantifier": "all graphs of class Graph3D, all methods that use copy, add_edge, add_node or distance of the object's own class", "why_tests_cant": "the override of a method changes every caller on every input", "anchors": ["graph/core.py: Graph3D.copy, Graph3D.add_edge, Graph3D.add_node, Graph3D.distance", "graph/tsp.py: tsp_greedy, tsp_2023", "graph/hash_methods.py: flow_graph_hash", "graph/critical_path.py: critical_path_minimize_for_slack", "graph/assignment_problem.py: ap_solver", "graph/traffic_scheduling_problem.py: JamSolver"]}
{"id": "C86", "title": "shortest_path is exact about floats", "statement": "When edge values are floats, addition rounds and is not associative. For every graph whose edge values are non-negative floats (infinity allowed, NaN not), shortest_path terminates and returns a path from start to end clear of avoids together with the sum of its edge values added from left to right in float arithmetic, and no other path clear of avoids has a smaller left-to-right float sum; it returns (inf, []) exactly when there is no such path. distance_from_path gives the returned path that same distance. In exact arithmetic the returned path is within the factor ((1+u)/(1-u))^k, u = 2^-53, of every other path.", "quantifier": "every graph, every pair of nodes, every avoids, every assignment of non-negative IEEE-754 binary64 edge values", "why_tests_cant": "Rounding depends on every bit of the weights; a test fixes a few weights, usually small integers, where nothing rounds.", "anchors": ["graph/shortest_path.py: shortest_path, distance_from_path"]}
{"id": "C87", "title": "The shortest path entry points agree on floats", "statement": "On a graph with non-negative float edge values shortest_path, shortest_path_bidirectional and all_pairs_shortest_paths report the same distance for a pair of nodes, and the distance reported with a path is the distance_from_path of that path.", "quantifier": "every graph with non-negative float edge values and every pair of nodes", "why_tests_cant": "With integer weights they do agree (C25, C29), so tests on integers pass; with floats it depends on the order in which partial sums are rounded.", "anchors": ["graph/shortest_path.py: shortest_path, shortest_path_bidirectional, distance_from_path", "graph/all_pairs_shortest_path.py: all_pairs_shortest_paths"]}
{"id": "C88", "title": "== and != between objects of any classes", "statement": "x == y is True exactly when both are graphs of the same class with the same nodes, node objects and edges (or the same non-graph object), so a Graph never equals a Graph3D with the same contents, in either order; == is reflexive, symmetric and transitive over graphs of all classes, including subclasses of one's own that inherit __eq__, and x != y is always the opposite of x == y.", "quantifier": "all pairs and triples of graph objects with any contents, of any classes in any class hierarchy", "why_tests_cant": "Quantifies over all contents and all class hierarchies; which operand's method Python asks depends on the two classes, and the method itself is asymmetric.", "anchors": ["graph/base.py: BasicGraph.__eq__, BasicGraph.__ne__", "graph/core.py: Graph, Graph3D"]}
{"id": "C89", "title": "grid(x, y) is the x by y grid", "statement": "grid(x, y, bidirectional) has an edge of value 1 from every cell to its right and its lower neighbour, with bidirectional also in the opposite direction, and no other edge; its nodes are all x*y cells if there are at least two (a 1x1 grid has no node). On it shortest_path returns |dx|+|dy| between any two cells, in a one-way grid only to cells that are neither further left nor further up, and (inf, []) otherwise.", "quantifier": "all sizes, both directions, all pairs of cells", "why_tests_cant": "All sizes, including 0, 1 and very thin grids, and all pairs of cells.", "anchors": ["examples/graphs.py: grid", "graph/shortest_path.py: shortest_path"]}
{"id": "C90", "title": "tsp_greedy and tsp_2023 return locally optimal tours", "statement": "On a complete graph with the same, non-zero edge value in both directions, reversing any part of the tour returned by tsp_greedy or tsp_2023 does not make it shorter; on at least 7 nodes exchanging two neighbouring parts of the tour of tsp_2023 does not either, and the tour of tsp_2023 is not longer than that of tsp_greedy.", "quantifier": "all complete symmetric graphs, all tours the moves pass through, all ways to cut a tour", "why_tests_cant": "Local optimality is a statement about every segment of the tour on every graph; the loop may stop before it is reached (repetition counter), and the moves compare four or six edges, not tours.", "anchors": ["graph/tsp.py: tsp_greedy, tsp_2023, _opt1, _opt2, _opt3"]}
{"id": "C91", "title": "The travelling salesman functions on float distances", "statement": "On a complete graph whose edge values are Python floats, tsp_greedy and tsp_2023 (the default of solve_tsp) end and return a tour through every node once, with its length as sum() computes it; the reported length is the exact length of the tour up to one rounding per edge; where the values add up without rounding (for example whole numbers), tour and length are those of the same graph with ints; below 7 nodes no tour has a smaller computed length.", "quantifier": "all complete graphs with float edge values (for tsp_greedy also negative, infinite and NaN), all orders of equal distances, both ways in which Python versions sum floats", "why_tests_cant": "Whether a loop over rounded gains ends depends on the last bits of sums over every tour it passes through; a test that passes says nothing about the next graph.", "anchors": ["graph/tsp.py: tsp_greedy, tsp_2023, brute_force, _greedy, _opt1, _opt2, _opt3", "graph/core.py: Graph.solve_tsp", "graph/base.py: BasicGraph.distance"]}
{"id": "C92", "title": "The selectors of nodes() and edges(), for every hashable node", "statement": "For every node n of a graph, nodes(from_node=n), nodes(to_node=n), edges(from_node=n) and edges(to_node=n) list exactly the neighbours or edges of n, each once, and the functions that use them (breadth_first_search, shortest_path) follow only edges; without an argument nodes() and edges() list everything; with more than one argument, a degree that is not an int >= 0, or a path that is not a list of two nodes or more they raise ValueError; edge(a, b, default) is the default exactly if there is no edge.", "quantifier": "all graphs built by any history, all nodes (any hashable, so also None), all combinations of arguments", "why_tests_cant": "The selectors are read by almost every algorithm, on every node of every graph; tests use numbers and strings as nodes, never the value that also means 'argument not given'.", "anchors": ["graph/base.py: BasicGraph.nodes, edges, edge, add_node", "graph/bfs.py: breadth_first_search", "graph/shortest_path.py: shortest_path"]}
{"id": "C93", "title": "critical_path with float durations", "statement": "For every plan without a cycle whose durations are floats >= 0, critical_path terminates and schedules every task once; earliest_finish is the largest (rounded) sum of durations along a chain of tasks that ends in the task, the critical path length the largest over all chains, latest_start the least of the (rounded) differences length - durations along a chain that starts in the task; no task starts before a predecessor ends, early or late; the task whose slack is 0 exists; every field is within a bound of the exact schedule, and equal to it when all durations are multiples of one power of two; slack is never negative and is 0 for every task on the critical path.", "quantifier": "all plans, all finite non-negative float durations (IEEE-754 binary64, round to nearest even), all orders in which topological_sort breaks ties, both classes", "why_tests_cant": "Rounding depends on every duration and on the chain; tests use whole numbers, which are never rounded.", "anchors": ["graph/critical_path.py: critical_path, Task.slack"]}
{"id": "C94", "title": "topological_sort while the graph is edited", "statement": "topological_sort is a generator; whatever the caller does to the graph between the calls of next() (also deleting the nodes just yielded), the calls yield a topological order of the graph as it was at the first next(), each node once, then StopIteration; if that graph has a cycle they yield an initial part of such an order, then AttributeError once, then StopIteration. Nothing is read before the first next().", "quantifier": "all schedules: the graph at every call of next() is any graph, all sort keys, both classes", "why_tests_cant": "The docstring invites to 'do something' at every yield; tests collect the generator into a list.", "anchors": ["graph/topological_sort.py: topological_sort"]}
{"id": "C95", "title": "breadth_first_walk while the graph is edited", "statement": "breadth_first_walk is a generator; whatever the caller does to the graph between the calls of next(): bad arguments raise ValueError at the first next(), checked against the graph at that time; otherwise the first value is start, no call raises, no node is yielded twice, every other yielded node was next to an earlier yielded node when that node was expanded, after end comes StopIteration, and when the walk stops without end it has yielded everything that was next to a yielded node at its turn, so everything reachable along edges that were there all the time; if only finitely many nodes are ever in the graph it stops; without edits it is the list of C19; every yielded node is in the graph at that moment.", "quantifier": "all schedules: the graph at every call of next() is any graph, all start and end nodes, both directions", "why_tests_cant": "An interleaving of edits and calls of next() is a history, and there are infinitely many; tests collect the generator into a list.", "anchors": ["graph/bfs.py: breadth_first_walk"]}
{"id": "C96", "title": "maximum_flow with float capacities", "statement": "With float capacities (0.0 or between 2^-900 and 2^900), two nodes s != e of the graph: maximum_flow returns after at most 2|E| augmenting paths; the flow graph has only edges of the graph, each with a positive flow that is at most its capacity; what enters an inner node leaves it; nothing enters s or leaves e; the total is what leaves s and what enters e; and either the total is the smaller of the sums of the capacities that leave s and that enter e, or no path from s to e has room left on every edge. Missing nodes are a ValueError.", "quantifier": "all graphs with such capacities, all pairs of nodes, any implementation of sum() that keeps sums of non-negative numbers non-negative", "why_tests_cant": "Every addition and subtraction rounds; whether the loop ends, and how far the rounded flow can be off, is a statement about all floats. Tests use small integers.", "anchors": ["graph/max_flow.py: maximum_flow"]}
{"id": "C97", "title": "minimum_cost_flow with float stocks and capacities", "statement": "With float stocks (up to 2^900 in size) and float capacities (not negative, not NaN; inf allowed), integer costs: minimum_cost_flow always returns after at most |E| + |inventory| shipments. The flow uses only links of the graph, each within its capacity; no supply is overdrawn, no demand overfilled, and every node sends out exactly what it gives away; either all demands are met or all supplies are used up. It raises only if a demand is left that no remaining supply reaches over links with room. Negative costs, negative capacities or capacities for other links are a ValueError.", "quantifier": "all cost graphs with integer costs >= 0, all float inventories and capacities, every way of sorting equal stocks, any float multiplication and sum() for the total", "why_tests_cant": "Every shipment subtracts and adds with rounding; that a supply or a link is exactly used up (== 0) decides whether the loop ends. Tests use small integers.", "anchors": ["graph/min_cost_flow.py: minimum_cost_flow_using_successive_shortest_path", "graph/core.py: Graph.minimum_cost_flow"]}
{"id": "C98", "title": "minsum and minmax with float edge values", "statement": "With float edge values (not negative, not NaN; inf counts as no edge) minsum() returns exactly the nodes whose exact sum of exact shortest distances to all nodes is least, and minmax() exactly those whose largest exact shortest distance is least; the result is never empty and has no duplicates. Both raise ValueError on a graph without nodes.", "quantifier": "all graphs with float edge values, every sum() that is accurate to one rounding per summand", "why_tests_cant": "Rounding errors of a shortest-path table and of a sum decide which totals compare equal (==); tests use integers.", "anchors": ["graph/minsum.py", "graph/minmax.py", "graph/all_pairs_shortest_path.py", "graph/core.py: Graph.minsum, Graph.minmax"]}
{"id": "C99", "title": "distance_map with float edge values", "statement": "With float edge values (not negative, not NaN) distance_map(starts) returns exactly the nodes that are reachable from some start, each with its shortest distance from a start as shortest_path computes it (with reverse=True: the nodes from which some end is reachable, with their distance to it); missing nodes and senseless combinations of arguments raise ValueError.", "quantifier": "all graphs with float edge values, all sets of starts and ends, every iteration order of sets", "why_tests_cant": "Minimality over all walks when every partial sum is rounded, for every order in which the nodes are visited; tests use integers.", "anchors": ["graph/distance_map.py", "graph/core.py: Graph.distance_map"]}
{"id": "C100", "title": "shortest_tree_all_pairs with float edge values", "statement": "With float edge values (not negative, not NaN) shortest_tree_all_pairs() lists all nodes, each once, in the order of their exact shortest distance from a node whose exact total distance to all nodes is least; KeyError if no node reaches all others.", "quantifier": "all graphs with float edge values, every iteration order of sets, every sum() that is accurate to one rounding per summand", "why_tests_cant": "Nodes are grouped by equality of rounded distances (0.0 and -0.0 are one key), and the start is chosen by a rounded total that may overflow; tests use integers.", "anchors": ["graph/shortest_tree_all_pairs.py", "graph/all_pairs_shortest_path.py", "graph/core.py: Graph.shortest_tree_all_pairs"]}
{"id": "C101", "title": "critical_path_minimize_for_slack with float durations", "statement": "On a non-empty plan without a cycle whose durations are floats (not negative, not NaN) critical_path_minimize_for_slack() terminates without exception and returns a plan with all the original tasks, durations and dependencies, without a cycle, with the same critical path length and no more total slack.", "quantifier": "all plans without a cycle, every order of the topological sort and of sets, every sum()", "why_tests_cant": "The result depends on == between rounded lengths and < between rounded sums whose order of addition changes when a dependency is removed and inserted again.", "anchors": ["graph/critical_path.py: critical_path_minimize_for_slack", "graph/core.py: Graph.critical_path_minimize_for_slack"]}
