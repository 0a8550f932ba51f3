(** Print Assumptions for every property theorem (generated from the Props files).
    Expected output for each: "Closed under the global context" unless DESIGN.md lists an axiom. *)
From Verif Require Import Prelude Base Spec PropsAssign PropsBase PropsBnb PropsCentreFloat PropsClass3d PropsCpmFloat PropsDag PropsFloat PropsFloat2 PropsFloat3 PropsFlow PropsFlowFloat PropsFlowFloat2 PropsFw PropsGDm PropsGSlack PropsGTree PropsGen PropsGraph3d PropsGrid PropsHash PropsHeap PropsJam PropsMcf PropsMcfFloat PropsMisc PropsNone PropsObjects PropsPaths PropsPlot PropsRail PropsRandom PropsSearch PropsSolve PropsSp PropsTraffic PropsTrain PropsTsp PropsTspFloat PropsTspFloat2 PropsTspLocal PropsWtap.
Print Assumptions C52_ap_matching.
Print Assumptions C52_ap_empty.
Print Assumptions C53_ap_half_optimal_partial.
Print Assumptions C53_ap_input_partial.
Print Assumptions C53_ap_optimal_refuted.
Print Assumptions C53_ap_input_refuted.
Print Assumptions C01_views_consistent.
Print Assumptions C02_add_node_effect.
Print Assumptions C02_add_edge_effect.
Print Assumptions C02_del_edge_effect.
Print Assumptions C02_del_node_effect.
Print Assumptions C03_degree_read_partial.
Print Assumptions C04_nodes_by_degree.
Print Assumptions C04_nodes_bad_arguments.
Print Assumptions C07_dict_round_trip.
Print Assumptions C08_list_round_trip.
Print Assumptions C10_subgraph_induced.
Print Assumptions C13_has_path_exact.
Print Assumptions C13_has_path_empty.
Print Assumptions C14_edges_along_path.
Print Assumptions C14_edges_short_path.
Print Assumptions C05_copy_equal.
Print Assumptions C06_copy3d_partial.
Print Assumptions C09_equality_observational.
Print Assumptions C09_equality_equivalence.
Print Assumptions C11_is_subgraph_exact.
Print Assumptions C11_is_subgraph_preorder.
Print Assumptions C11_subgraph_is_subgraph.
Print Assumptions C12_same_path_rotation.
Print Assumptions C12_same_object.
Print Assumptions C12_empty_refuted.
Print Assumptions C03_refuted.
Print Assumptions C06_refuted.
Print Assumptions C68_distance_partial.
Print Assumptions C68_distance_refuted.
Print Assumptions C51_bnb_partial.
Print Assumptions C51_small_refuted.
Print Assumptions C51_not_optimal_refuted.
Print Assumptions C51_assertion_refuted.
Print Assumptions C51_loop_refuted.
Print Assumptions C98_minmax_floats_partial.
Print Assumptions C98_grid_minmax.
Print Assumptions C98_minsum_floats_partial.
Print Assumptions C98_grid_minsum.
Print Assumptions C98_empty.
Print Assumptions C98_naive_sum.
Print Assumptions C98_minsum_ties_refuted.
Print Assumptions C85_tsp_refuted.
Print Assumptions C85_tsp_2023_refuted.
Print Assumptions C85_assignment_refuted.
Print Assumptions C85_flow_hash_refuted.
Print Assumptions C85_slack_refuted.
Print Assumptions C85_jam_refuted.
Print Assumptions C93_early_any.
Print Assumptions C93_cyclic_raises.
Print Assumptions C93_late_floats.
Print Assumptions C93_error.
Print Assumptions C93_multiples_exact.
Print Assumptions C93_slack_refuted.
Print Assumptions C36_phase_lines_levels_partial.
Print Assumptions C36_phase_lines_any_graph_partial.
Print Assumptions C37_sources_exact_partial.
Print Assumptions C37_sources_other_partial.
Print Assumptions C38_critical_path_exact.
Print Assumptions C38_cyclic_raises.
Print Assumptions C39_slack_partial.
Print Assumptions C36_cycle_not_reported_refuted.
Print Assumptions C37_cycle_refuted.
Print Assumptions C39_raises_refuted.
Print Assumptions C86_shortest_path_rounded.
Print Assumptions C86_shortest_path_floats.
Print Assumptions C86_exact_is_C23.
Print Assumptions C86_nearly_shortest.
Print Assumptions C86_distance_from_path.
Print Assumptions C87_entry_points_disagree_refuted.
Print Assumptions C87_bidirectional_reports_other_length_refuted.
Print Assumptions C87_bidirectional_rounded.
Print Assumptions C87_bidirectional_floats.
Print Assumptions C87_searches_near_partial.
Print Assumptions C87_entry_points_near_partial.
Print Assumptions C87_integral_agree.
Print Assumptions C86_distance_from_path_legs.
Print Assumptions C42_maximum_flow_feasible.
Print Assumptions C42_bad_nodes.
Print Assumptions C43_blocking_flow_partial.
Print Assumptions C44_min_cut_edges_partial.
Print Assumptions C44_bad_nodes_partial.
Print Assumptions C43_not_maximal_refuted.
Print Assumptions C44_not_minimal_refuted.
Print Assumptions C44_not_a_cut_refuted.
Print Assumptions C42_maximum_flow_feasible_floats.
Print Assumptions C44_min_cut_edges_floats_partial.
Print Assumptions C43_not_maximal_floats_refuted.
Print Assumptions C96_float_flow_partial.
Print Assumptions C96_grid_flow.
Print Assumptions C96_bad_nodes.
Print Assumptions C96_over_capacity_refuted.
Print Assumptions C29_all_pairs_exact.
Print Assumptions C29_finite_iff_reachable.
Print Assumptions C30_adjacency_matrix_exact.
Print Assumptions C30_adjacency_matrix_keys.
Print Assumptions C31_minsum_exact.
Print Assumptions C31_minmax_exact.
Print Assumptions C31_empty_graph.
Print Assumptions C32_order_from_last_finite_partial.
Print Assumptions C32_single_candidate_partial.
Print Assumptions C33_forward_partial.
Print Assumptions C33_reverse_partial.
Print Assumptions C33_bad_arguments_partial.
Print Assumptions C32_best_start_refuted.
Print Assumptions C33_shortest_refuted.
Print Assumptions C99_forward_rounded.
Print Assumptions C99_reverse_rounded.
Print Assumptions C99_bad_arguments_partial.
Print Assumptions C99_forward_floats_partial.
Print Assumptions C99_reverse_floats_partial.
Print Assumptions C99_shortest_refuted.
Print Assumptions C101_slack_rounded.
Print Assumptions C101_slack_floats_partial.
Print Assumptions C101_grid_slack.
Print Assumptions C101_raises_refuted.
Print Assumptions C100_order_from_last_finite_partial.
Print Assumptions C100_grid_order.
Print Assumptions C100_empty.
Print Assumptions C100_best_start_refuted.
Print Assumptions C94_topo_snapshot.
Print Assumptions C94_topo_independent.
Print Assumptions C95_bad_nodes.
Print Assumptions C95_unedited.
Print Assumptions C95_any_edits.
Print Assumptions C95_lasting_edges.
Print Assumptions C95_stops.
Print Assumptions C95_deleted_node_refuted.
Print Assumptions C80_only_positions.
Print Assumptions C80_add_node_exact.
Print Assumptions C80_add_edge_exact.
Print Assumptions C80_from_list_exact.
Print Assumptions C80_from_dict_exact.
Print Assumptions C80_pairs_rejected.
Print Assumptions C81_distance_total.
Print Assumptions C81_distance_metric.
Print Assumptions C89_grid_exact.
Print Assumptions C89_grid_distance.
Print Assumptions C56_merkle_root_reached.
Print Assumptions C56_merkle_single_root.
Print Assumptions C56_root_determines_blocks.
Print Assumptions C56_same_root_same_blocks.
Print Assumptions C56_root_determines_blocks_same_number.
Print Assumptions C56_no_blocks.
Print Assumptions C70_no_digest_pairs_partial.
Print Assumptions C70_second_preimage_refuted.
Print Assumptions C57_hash_depends_on_content.
Print Assumptions C57_equal_graphs_equal_hash.
Print Assumptions C58_flow_hash_outcome_partial.
Print Assumptions C58_forest_partial.
Print Assumptions C58_dag_raises_refuted.
Print Assumptions C78_every_graph_reachable.
Print Assumptions C78_others_untouched.
Print Assumptions C78_call_effect.
Print Assumptions C78_copy_effect.
Print Assumptions C78_to_dict_effect.
Print Assumptions C78_from_dict_effect.
Print Assumptions C78_dicts_untouched.
Print Assumptions C78_every_dict_well_formed.
Print Assumptions C79_state_after_exception.
Print Assumptions C79_from_list_stops.
Print Assumptions C79_from_list_accepts.
Print Assumptions C79_add_edge_rejected.
Print Assumptions C79_from_dict_effect.
Print Assumptions C60_moves_legal.
Print Assumptions C61_return_on_first_ignored_partial.
Print Assumptions C71_prohibited_respected_partial.
Print Assumptions C72_no_solution_exact_partial.
Print Assumptions C72_complete_partial.
Print Assumptions C73_short_plans_partial.
Print Assumptions C61_search_goes_on_refuted.
Print Assumptions C71_prohibited_end_refuted.
Print Assumptions C72_unsolvable_refuted.
Print Assumptions C73_not_shortest_refuted.
Print Assumptions C45_feasible.
Print Assumptions C45_negative_costs.
Print Assumptions C45_bad_capacity.
Print Assumptions C46_one_supply_partial.
Print Assumptions C46_one_demand_partial.
Print Assumptions C77_all_reachable_partial.
Print Assumptions C46_not_minimal_refuted.
Print Assumptions C46_capacity_refuted.
Print Assumptions C77_raises_refuted.
Print Assumptions C97_float_shipment_partial.
Print Assumptions C97_grid_shipment.
Print Assumptions C97_rejects.
Print Assumptions C97_over_capacity_refuted.
Print Assumptions C47_bipartite_exact_partial.
Print Assumptions C47_partition_sound_partial.
Print Assumptions C47_refusal_sound_partial.
Print Assumptions C47_terminates_partial.
Print Assumptions C47_directed_refuted.
Print Assumptions C47_three_colours_refuted.
Print Assumptions C48_loop_closed.
Print Assumptions C48_loop_open.
Print Assumptions C48_bad_nodes.
Print Assumptions C55_fsm_refines.
Print Assumptions C69_ids_in_use_partial.
Print Assumptions C69_int_states_refuted.
Print Assumptions C92_selectors.
Print Assumptions C92_bad_selectors.
Print Assumptions C92_edge_default.
Print Assumptions C92_bfs_without_none.
Print Assumptions C92_shortest_path_without_none.
Print Assumptions C92_none_refuted.
Print Assumptions C88_equal_exact.
Print Assumptions C88_equivalence.
Print Assumptions C88_not_equal.
Print Assumptions C40_all_simple_paths_exact.
Print Assumptions C40_bad_arguments.
Print Assumptions C41_all_paths_sound_partial.
Print Assumptions C41_all_paths_dag_partial.
Print Assumptions C41_no_exception_partial.
Print Assumptions C41_raises_refuted.
Print Assumptions C41_diverges_refuted.
Print Assumptions C82_accepts.
Print Assumptions C82_edges_drawn_partial.
Print Assumptions C82_nodes_drawn_partial.
Print Assumptions C82_nodes_not_lines_refuted.
Print Assumptions C83_accepts.
Print Assumptions C83_drawn.
Print Assumptions C83_cube.
Print Assumptions C83_labels_limits_partial.
Print Assumptions C83_swaps_four.
Print Assumptions C83_labels_limits_refuted.
Print Assumptions C64_schedule_permutes.
Print Assumptions C64_diverges_otherwise.
Print Assumptions C65_never_finds_refuted.
Print Assumptions C74_schedule_shortest_partial.
Print Assumptions C75_find_sections.
Print Assumptions C75_find_total.
Print Assumptions C65_circuit_missed_refuted.
Print Assumptions C74_not_shortest_refuted.
Print Assumptions C66_size.
Print Assumptions C66_errors.
Print Assumptions C66_terminates.
Print Assumptions C67_nearest.
Print Assumptions C67_bad_n.
Print Assumptions C15_is_connected_exact.
Print Assumptions C16_components_partition.
Print Assumptions C17_network_size_ball.
Print Assumptions C17_network_size_bad_node.
Print Assumptions C18_bfs_shortest.
Print Assumptions C18_bfs_bad_nodes.
Print Assumptions C19_bfs_walk.
Print Assumptions C20_degree_of_separation.
Print Assumptions C20_same_node.
Print Assumptions C21_dfs_sound_complete.
Print Assumptions C21_dfs_bad_nodes.
Print Assumptions C22_depth_scan_exact.
Print Assumptions C34_topological_sort.
Print Assumptions C35_has_cycles_exact.
Print Assumptions C22_rejected_frontier_returned.
Print Assumptions C49_solve_tsp.
Print Assumptions C50_solve_tsp_greedy.
Print Assumptions C50_solve_tsp_2023_partial.
Print Assumptions C51_solve_tsp_partial.
Print Assumptions C50_solve_tsp_unknown.
Print Assumptions C23_shortest_path_optimal.
Print Assumptions C23_shortest_path_bad_nodes.
Print Assumptions C24_shortest_path_avoids.
Print Assumptions C25_bidirectional_optimal.
Print Assumptions C25_bidirectional_agrees.
Print Assumptions C25_bidirectional_avoids.
Print Assumptions C26_cache_transparent.
Print Assumptions C28_distance_from_path_legs.
Print Assumptions C28_distance_of_walk.
Print Assumptions C28_empty.
Print Assumptions C27_stale_after_edit_refuted.
Print Assumptions C27_avoided_endpoint_refuted.
Print Assumptions C27_hash_collision_refuted.
Print Assumptions C27_fresh_cache_partial.
Print Assumptions C63_timer_exact.
Print Assumptions C63_timer_stays.
Print Assumptions C63_timer_notices.
Print Assumptions C63_timer_negative.
Print Assumptions C59_solvable_sound_partial.
Print Assumptions C59_laminar_exact_partial.
Print Assumptions C59_two_loads_partial.
Print Assumptions C59_solvable_refuted.
Print Assumptions C62_path_to_moves.
Print Assumptions C62_path_to_moves_empty.
Print Assumptions C62_synchronous_moves.
Print Assumptions C75_find_accepts.
Print Assumptions C75_find_refuses.
Print Assumptions C84_constructor.
Print Assumptions C84_keeps_to_access.
Print Assumptions C84_schedule.
Print Assumptions C84_read.
Print Assumptions C84_system.
Print Assumptions C49_small_optimal.
Print Assumptions C49_brute_force.
Print Assumptions C49_no_tour.
Print Assumptions C49_no_nodes.
Print Assumptions C50_greedy.
Print Assumptions C50_greedy_start.
Print Assumptions C50_2023_partial.
Print Assumptions C50_2023_small.
Print Assumptions C50_one_node_refuted.
Print Assumptions C50_2023_asymmetric_refuted.
Print Assumptions C91_greedy_any.
Print Assumptions C91_2023_any_partial.
Print Assumptions C91_greedy_floats.
Print Assumptions C91_greedy_length_near.
Print Assumptions C91_2023_floats_refuted.
Print Assumptions C91_2023_exact.
Print Assumptions C91_greedy_exact.
Print Assumptions C91_integers_agree.
Print Assumptions C91_small_floats.
Print Assumptions C90_greedy.
Print Assumptions C90_2023_partial.
Print Assumptions C90_2023_refuted.
Print Assumptions C54_wtap_value.
Print Assumptions C54_wtap_bounds.
Print Assumptions C54_wtap_no_weapons_refuted.
Print Assumptions C54_wtap_refused.
Print Assumptions C54_wtap_idle_weapon.
Print Assumptions C76_wtap_local_optimum_partial.
Print Assumptions C76_wtap_last_weapon_partial.
Print Assumptions C76_wtap_local_optimum_refuted.
