{
 "claims": [
  {
   "property": "C01",
   "status": "proved",
   "theorems": [
    "C01_frontier_refines_sorted_list",
    "C01_frontier_ordered_distinct",
    "C01_frontier_top_is_best",
    "C01_frontier_push_position"
   ],
   "note": ""
  },
  {
   "property": "C02",
   "status": "proved",
   "theorems": [
    "C02_success_is_a_path",
    "C02_no_undefined_behaviour"
   ],
   "note": ""
  },
  {
   "property": "C03",
   "status": "proved",
   "theorems": [
    "C03_failure_means_unreachable",
    "C03_failure_has_no_result"
   ],
   "note": ""
  },
  {
   "property": "C04",
   "status": "proved",
   "theorems": [
    "C04_graph_search_optimal",
    "C04_graph_search_optimal_real",
    "C04_admissible_only_refuted",
    "C04_cheapest_of_all_solutions"
   ],
   "note": "Consistency is necessary: C04_admissible_only_refuted shows that admissibility alone is not enough."
  },
  {
   "property": "C05",
   "status": "proved",
   "theorems": [
    "C05_expands_once",
    "C05_terminates"
   ],
   "note": ""
  },
  {
   "property": "C06",
   "status": "partial",
   "theorems": [
    "C06_tree_search_optimal_refuted",
    "C06_tree_search_sound_complete_partial",
    "C06_one_cost_per_state_partial",
    "C06_one_cost_per_state_real_partial"
   ],
   "note": "The property is false of the code (refuted by a 4-state graph). The partial theorems prove soundness and completeness of tree search, and optimality with an admissible heuristic where all paths to a state cost the same (trees in particular)."
  },
  {
   "property": "C07",
   "status": "partial",
   "theorems": [
    "C07_results_belong_to_last_search_refuted",
    "C07_results_belong_to_last_search_partial"
   ],
   "note": "False after a rejected Initialize; proved for every history without one."
  },
  {
   "property": "C08",
   "status": "proved",
   "theorems": [
    "C08_combined_is_maximum",
    "C08_combined_admissible",
    "C08_combined_consistent"
   ],
   "note": ""
  },
  {
   "property": "C09",
   "status": "proved",
   "theorems": [
    "C09_grid_path_avoids_obstacles",
    "C09_occupancy_reads_in_bounds",
    "C09_propagator_exact"
   ],
   "note": ""
  },
  {
   "property": "C10",
   "status": "proved",
   "theorems": [
    "C10_grid_search_terminates",
    "C10_grid_failure_means_no_walk",
    "C10_grid_path_shortest"
   ],
   "note": ""
  },
  {
   "property": "C100",
   "status": "proved",
   "theorems": [
    "C100_rrt",
    "C100_rrt_star",
    "C100_clear_curve"
   ],
   "note": "The probability of visiting the discs is not modelled: the samples are an arbitrary sequence."
  },
  {
   "property": "C101",
   "status": "proved",
   "theorems": [
    "C101_no_undefined_behaviour",
    "C101_success_is_two_joined_paths",
    "C101_failure_means_unreachable",
    "C101_terminates",
    "C101_average_of_estimates"
   ],
   "note": "Examples show that two infinite estimates average to NaN, and that steps of 2^1023 make the search fail although the goal is reachable. How far the cost is from the smallest is C14 over the reals and C126 in doubles."
  },
  {
   "property": "C102",
   "status": "proved",
   "theorems": [
    "C102_consistent",
    "C102_extend",
    "C102_nearest",
    "C102_reparent",
    "C102_size_clear_create"
   ],
   "note": "Examples show why the provisos are there: a second CreateRootNode without Clear leaves a dangling pointer in the map, and an equality that is not reflexive (NaN coordinates) makes Extend return a null pointer. Both planners clear the tree before creating the root."
  },
  {
   "property": "C103",
   "status": "proved",
   "theorems": [
    "C103_rrt_search_again",
    "C103_star_search_again",
    "C103_rrt_memory_safe",
    "C103_star_memory_safe",
    "C103_rrt_memory_safe_any_equality",
    "C103_star_memory_safe_any_equality"
   ],
   "note": "The planners with the memory of C102 refine the memoryless planners of C56 and C57, whose theorems thus hold of planners in use."
  },
  {
   "property": "C104",
   "status": "proved",
   "theorems": [
    "C104_same_answers",
    "C104_no_undefined_behaviour",
    "C104_pointers",
    "C104_no_leak",
    "C104_explored_pointers_expire"
   ],
   "note": "The two searches have a heap each. NoFuel, a search that does not end, is not undefined behaviour."
  },
  {
   "property": "C105",
   "status": "proved",
   "theorems": [
    "C105_records_nest",
    "C105_laminar",
    "C105_count"
   ],
   "note": "C105_clock_back shows why the clock must not go back."
  },
  {
   "property": "C106",
   "status": "proved",
   "theorems": [
    "C106_bends_less",
    "C106_progress",
    "C106_converges"
   ],
   "note": "C106_large_rate shows that a larger learning rate can make the path bend more."
  },
  {
   "property": "C107",
   "status": "proved",
   "theorems": [
    "C107_gradient_descent",
    "C107_last_gradient"
   ],
   "note": "The obstacle and the edge nearest to a sample are those looked up in the iteration. A negative voronoiWeight is ignored by the code and excluded here."
  },
  {
   "property": "C108",
   "status": "partial",
   "theorems": [
    "C108_unsafe_sample_stays_refuted",
    "C108_unsafe_sample_moves_away_partial",
    "C108_safe_sample_partial"
   ],
   "note": "Refuted: these are the samples that the collision term moves, straight away from the obstacle; samples farther away get no such term."
  },
  {
   "property": "C109",
   "status": "partial",
   "theorems": [
    "C109_small_step_ends_refuted",
    "C109_last_step_partial"
   ],
   "note": "Refuted: the tolerance is compared with the gradients, not with the steps, and after the step. When it ends the run, all samples moved by less than learningRate * stepTolerance in the last iteration."
  },
  {
   "property": "C11",
   "status": "proved",
   "theorems": [
    "C11_success_is_two_joined_paths",
    "C11_no_undefined_behaviour",
    "C11_terminates"
   ],
   "note": "Graph and tree search, any propagators and heuristics."
  },
  {
   "property": "C110",
   "status": "proved",
   "theorems": [
    "C110_planners_may_share",
    "C110_average_pointers"
   ],
   "note": "C110_one_function_behind_two_adapters shows why a function may be reached in one way only."
  },
  {
   "property": "C111",
   "status": "partial",
   "theorems": [
    "C111_directions_may_share_refuted",
    "C111_separate_functions_partial"
   ],
   "note": "Refuted: one object gets both goals, the second replaces the first. Proved if the functions consulted by the two directions are different objects."
  },
  {
   "property": "C112",
   "status": "partial",
   "theorems": [
    "C112_averaged_pair_has_own_goal_refuted",
    "C112_constant_is_not_set_refuted",
    "C112_averaged_pair_partial"
   ],
   "note": "Refuted twice: the inner heuristics keep earlier goals, and with an average in one direction only its constant is never set. Proved: with a pair, the constants are those of the current search and the inner heuristics are read as they are."
  },
  {
   "property": "C113",
   "status": "proved",
   "theorems": [
    "C113_polygon_outline",
    "C113_walk_keeps_side",
    "C113_path_keeps_side",
    "C113_other_side_unreachable",
    "C113_bidirectional_path_keeps_side",
    "C113_obstacles_are_not_crossed",
    "C113_rectangle"
   ],
   "note": "Sides by the even-odd rule on the drawn outline; C113_rectangle checks the rule on rectangles. C113_from_the_outline shows why the ends have to be free."
  },
  {
   "property": "C114",
   "status": "proved",
   "theorems": [
    "C114_ends_if_paths_end",
    "C114_endless_without_solution"
   ],
   "note": "Never returning is stated as running out of every amount of fuel."
  },
  {
   "property": "C115",
   "status": "proved",
   "theorems": [
    "C115_set_and_map_agree",
    "C115_tree_search_ignores_container",
    "C115_any_container_is_sound",
    "C115_any_container_ends_if_paths_end",
    "C115_void_failure_means_unreachable",
    "C115_void_is_optimal",
    "C115_void_endless_without_solution"
   ],
   "note": "A container is a state with a function for Insert and one for Contains; Contains does not change the state."
  },
  {
   "property": "C116",
   "status": "partial",
   "theorems": [
    "C116_generators_exist_refuted",
    "C116_doubles_only_partial",
    "C116_no_rrt_star_partial",
    "C116_double_space_first_partial",
    "C116_one_sequence"
   ],
   "note": "Refuted: RRTStar draws doubles but does not initialize their generator (RRT does), so with a state space of floats it dereferences a null engine. True for programs without state spaces of floats, without RRTStar, or that first make a state space of doubles."
  },
  {
   "property": "C117",
   "status": "proved",
   "theorems": [
    "C117_finds_a_solution",
    "C117_finds_a_solution_real",
    "C117_endless_if_costs_stay_low",
    "C117_failure_means_all_explored",
    "C117_unit_test_of_a_star"
   ],
   "note": "The propagator returns the same transitions whenever it is asked about the same state. Costs of the plane are real numbers."
  },
  {
   "property": "C118",
   "status": "proved",
   "theorems": [
    "C118_finds_a_path",
    "C118_finds_a_path_real",
    "C118_plane",
    "C118_endless_if_costs_stay_low"
   ],
   "note": "Each propagator returns the same transitions whenever it is asked about the same state. Costs are real numbers. Example C118_twins meets the hypotheses of the last theorem."
  },
  {
   "property": "C119",
   "status": "partial",
   "theorems": [
    "C119_bidirectional_agrees_with_astar_refuted",
    "C119_succeeds_iff_walk_exists_partial",
    "C119_path_is_a_walk_partial",
    "C119_cost_is_close_to_least_partial"
   ],
   "note": "Refuted for occupied cells: a path to an occupied goal is returned although A* fails, and a search from an occupied start fails although A* succeeds, because neither the start nor the goal is checked. Proved for free starts and goals. The cell where the two searches met is listed twice (C12). Costs are real numbers in the last two theorems."
  },
  {
   "property": "C12",
   "status": "partial",
   "theorems": [
    "C12_path_lists_states_once_refuted",
    "C12_path_is_forward_path_partial"
   ],
   "note": "False of the code: every successful search repeats the meeting state. Proved instead: apart from that repetition the result is a forward path with the reported cost."
  },
  {
   "property": "C120",
   "status": "partial",
   "theorems": [
    "C120_stays_between_refuted",
    "C120_ends_partial",
    "C120_stays_between_partial",
    "C120_error_partial",
    "C120_truncate_partial"
   ],
   "note": "Refuted: between 3 and 3 the number at ratio 0.2 is above 3, so that a path along the border of a state space leaves it. Proved: exact ends, between numbers of different sign, and an error of at most 2^-51 times the larger number. No fused operations."
  },
  {
   "property": "C121",
   "status": "proved",
   "theorems": [
    "C121_pi",
    "C121_wrap_theta",
    "C121_wrap_theta_same",
    "C121_sum_of_headings",
    "C121_modulo",
    "C121_wrap_angle"
   ],
   "note": "C121_huge shows why the heading is bounded (2^60 is never wrapped); that Modulo can return m is C47_modulo_refuted."
  },
  {
   "property": "C122",
   "status": "partial",
   "theorems": [
    "C122_accepted_is_within_refuted",
    "C122_sample_is_within_refuted",
    "C122_accepted_is_within_partial",
    "C122_sample_is_within_partial",
    "C122_gaussian_is_within_partial"
   ],
   "note": "Refuted: not-a-number is accepted, and a uniform sample may exceed the upper bound by a rounding error. Proved: all other numbers are accepted exactly if within the bounds; a uniform sample is never too low, too high by at most 2^-51 times the larger bound, and within the bounds if their difference is exact; Gaussian samples are within the bounds."
  },
  {
   "property": "C123",
   "status": "partial",
   "theorems": [
    "C123_terminates_refuted",
    "C123_truncation_point_refuted",
    "C123_terminates_partial",
    "C123_clearance_partial",
    "C123_border_partial",
    "C123_standing"
   ],
   "note": "Refuted: steps that are lost by rounding make the loop endless, and the ratio, stored in single precision, may lead past the last valid state to an invalid one. Proved: the loop ends if the path is shorter than 2^52 interpolation distances; if the first state is valid, the path keeps, up to the ratio reported (1 if accepted), the required clearance and the bounds of the state space, up to the interpolation distance, the error of the map or of the interpolation, and 2^-21 of the length."
  },
  {
   "property": "C124",
   "status": "partial",
   "theorems": [
    "C124_returns_refuted",
    "C124_returns_partial"
   ],
   "note": "Refuted: a motion that the validator accepts may leave the bounds by up to the interpolation distance, and its Voronoi cost is then read outside the map. Proved: if the map also covers that margin, all loops of the search end with a defined result, whatever the start, the goal, the obstacles and the random draws. The heuristic has to be defined on every pose within these bounds; that of the planner is not always (C84). Maps sized by the validator itself have no such margin."
  },
  {
   "property": "C125",
   "status": "partial",
   "theorems": [
    "C125_no_border_missed_partial",
    "C125_edges_separate_partial",
    "C125_edges_between_obstacles_partial",
    "C125_removal_refuted",
    "C125_history_refuted",
    "C125_late_diagram_refuted",
    "C125_map_edges_separate_partial",
    "C125_map_edges_between_obstacles_partial"
   ],
   "note": "Proved: no border is missed, for every history with removals too; without removals the edges separate obstacles that are more than sqrt 10 cells apart, and every edge is equally far, up to the diagonal of a cell, from the reported obstacle and from another existing one. Refuted: edges stay when the obstacles are removed, and when a later obstacle moves the border; a diagram that is created after the map was updated has no edges. The last two theorems say the same of the obstacles that are added to an obstacle list map, through the rasterised outlines."
  },
  {
   "property": "C126",
   "status": "proved",
   "theorems": [
    "C126_cost_is_nearly_the_smallest",
    "C126_path_is_nearly_the_cheapest"
   ],
   "note": "The step is needed: an Example gives a graph where the search reports 118 although a path of cost 90 with steps of 30 exists (C14 has the same over the integers)."
  },
  {
   "property": "C127",
   "status": "proved",
   "theorems": [
    "C127_explores_reachable",
    "C127_stored_costs",
    "C127_value"
   ],
   "note": "C50 and C65 say the same in exact arithmetic, and why the cost is not that of a shortest walk. The distance to the goal and the cell of the state are arguments here (C21 has the cell in doubles). Products and sums are rounded one by one; a fused multiply-subtract is not modelled. An Example shows that straight steps are lost from 2^24 on."
  },
  {
   "property": "C128",
   "status": "proved",
   "theorems": [
    "C128_distance",
    "C128_path_cost"
   ],
   "note": "C27 says the same over the real numbers. std::pow(x, 2) of a float is the square in double precision, which is exact. Examples: the constants of the code, the costs of three cells, and the NaN that an edge set by the caller on an obstacle gives."
  },
  {
   "property": "C129",
   "status": "partial",
   "theorems": [
    "C129_answer_refuted",
    "C129_nan_heading_refuted",
    "C129_answer_partial"
   ],
   "note": "Refuted: IsStateValid converts the position to int before it checks the bounds, which is undefined behaviour for NaN, infinities and positions more than 2^31 cells away; and ValidateBounds lets a NaN heading pass. Proved: for finite poses at most 2^30 cells from the map with a wrapped heading there is an answer, with the exact meaning up to one rounding of the position and a millionth of a cell. As in C22, the cell before the first counts as the first (truncation), and the upper border of the map is outside."
  },
  {
   "property": "C13",
   "status": "proved",
   "theorems": [
    "C13_failure_means_unreachable",
    "C13_failure_has_no_result"
   ],
   "note": ""
  },
  {
   "property": "C130",
   "status": "partial",
   "theorems": [
    "C130_never_longer_refuted",
    "C130_length_refuted",
    "C130_steer_partial",
    "C130_search_partial",
    "C130_terminates_partial"
   ],
   "note": "Refuted: from (0, 0) towards (25, 0) with maximum distance 7 the new state is beyond 7, and for coordinates whose difference overflows the length is NaN. Proved for coordinates up to 2^500 and distances between 2^-400 and 2^400: all of it up to 2^-47 times the distance and 2^-50 times the largest coordinate. The search theorem assumes that the validator accepts only ends within the bounds, and nothing about the equality of states (the two zeros are equal). No fused operations. The search ends within its budgets under the same bounds."
  },
  {
   "property": "C131",
   "status": "proved",
   "theorems": [
    "C131_motion",
    "C131_start"
   ],
   "note": "For coordinates and lengths up to 2^60, headings up to 8, wheelbases from 2^-50 on and at most 7 radians per motion. The reference point is the rear axle, as Hybrid A* makes its model. A library that rounds correctly meets the hypotheses (example). The unqualified abs is that of doubles; no fused operations."
  },
  {
   "property": "C132",
   "status": "partial",
   "theorems": [
    "C132_exact_refuted",
    "C132_defined_refuted",
    "C132_cell_partial",
    "C132_same_cell_partial"
   ],
   "note": "Refuted: 0.5 is in cell 5 of size 0.1 although five times the double 0.1 is more than 0.5, and 2^31 cells from the origin, or for NaN, the conversion to int is undefined. Proved: within 2^30 cells there is a cell, that of the coordinates up to one rounding, and poses in one cell are as close as stated up to rounding (twice as far apart across an axis). That the index of the heading is wrapped to seven values is C52; its integer wrapping is computed in doubles here and shown to be the same."
  },
  {
   "property": "C133",
   "status": "partial",
   "theorems": [
    "C133_in_bounds_refuted",
    "C133_out_of_bounds",
    "C133_in_bounds_partial",
    "C133_beyond",
    "C133_difference"
   ],
   "note": "Refuted: as over the reals (C51), a goal whose heading, seen from the state, is minus half an angular resolution or less is looked up at a negative index. Proved: for all other headings (up to one bit next to that limit) the read is in bounds and at the nearest node up to rounding, or the difference is past the table up to rounding; beyond the table there is no read; the difference itself is always defined, right up to rounding and has a wrapped heading. What Build writes into the table is C51 and C66, over the reals."
  },
  {
   "property": "C134",
   "status": "partial",
   "theorems": [
    "C134_length",
    "C134_interpolates",
    "C134_end",
    "C134_start",
    "C134_direction_partial",
    "C134_direction_refuted",
    "C134_truncates",
    "C134_cusps",
    "C134_joints"
   ],
   "note": "Refuted: the direction at the ratio one reads past the end of the list, for every sequence (as over the reals, C42). Proved: interpolation and truncation for all ratios, the direction for all ratios below one of paths at least 2^-1000 long (an example shows that a subnormal length fails), exact ends, and cusp ratios for paths with a length (an example shows that the path without a length has a cusp that is not a number)."
  },
  {
   "property": "C135",
   "status": "partial",
   "theorems": [
    "C135_length",
    "C135_interpolates",
    "C135_direction_partial",
    "C135_direction_refuted",
    "C135_cusps_sound",
    "C135_cusps_complete_partial",
    "C135_cusps_complete_refuted"
   ],
   "note": "Refuted: the direction at the end may be NoMotion although the path drives forward all the time (lengths 0.9, 0.4, 1.6 with the radius 1.1), and a change of direction before a very short last motion may be missed. Proved: length and interpolation for all ratios; the direction and the cusps except within rounding of the end of the path. Truncate (refuted in C36 over the reals) and the pose reached by a single motion are not part of this property."
  },
  {
   "property": "C136",
   "status": "proved",
   "theorems": [
    "C136_poses",
    "C136_end"
   ],
   "note": "The operations are rounded one by one; a compiler that fuses multiplications and additions is not modelled. The size K covers the radius, the initial coordinates and twice the length of the path, between 2^-900 and 2^400."
  },
  {
   "property": "C137",
   "status": "partial",
   "theorems": [
    "C137_samples",
    "C137_cusps_partial",
    "C137_cusps_refuted",
    "C137_end_refuted",
    "C137_terminates_refuted"
   ],
   "note": "The first part is proved. The cusps are kept if they are more than a step apart and none is half-way between two places (C137_cusps_partial); otherwise a cusp half-way between two places falls into neither window by rounding and hides all later ones and the end (C137_cusps_refuted). A path of fifteen steps of 0.1 is sampled without its end, because the places add up to slightly more (C137_end_refuted). With the length 2^54 and the step one the places never pass 2^53 and sampling never ends (C137_terminates_refuted)."
  },
  {
   "property": "C138",
   "status": "partial",
   "theorems": [
    "C138_replaced",
    "C138_cheapest_refuted"
   ],
   "note": "The effect on the frontier is proved exactly. That the path is a cheapest one is false, even without estimates and if everything depends on the cells alone: a cheaper way into a cell of the frontier that ends in another pose is dropped (C138_cheapest_refuted); with the shortcut of the base class the same search finds the cheapest path."
  },
  {
   "property": "C139",
   "status": "proved",
   "theorems": [
    "C139_cost"
   ],
   "note": "The path cost of the cell at a ratio is a parameter with values between zero and one, as C128 proves of the Voronoi diagram. Without the bound on the length the loop need not end (C139_endless). Over the reals this is C70."
  },
  {
   "property": "C14",
   "status": "partial",
   "theorems": [
    "C14_optimal_refuted",
    "C14_optimal_up_to_one_edge_partial",
    "C14_optimal_when_exhausted_partial"
   ],
   "note": "False of the code: candidates are only compared when a state is expanded by both searches. Proved instead: the excess is at most one edge (plus the heuristic increase along it), and none when a frontier empties."
  },
  {
   "property": "C140",
   "status": "partial",
   "theorems": [
    "C140_cost_partial",
    "C140_cost_refuted",
    "C140_optimal_partial",
    "C140_child_partial",
    "C140_not_empty"
   ],
   "note": "When the reverse factor is one and switching is free, the forward factor is ignored: C140_cost_refuted; the other theorems exclude this case unless the forward factor is one. The candidate paths are a parameter. Over the reals these are C39, C40 and C70."
  },
  {
   "property": "C141",
   "status": "partial",
   "theorems": [
    "C141_number",
    "C141_radius",
    "C141_inputs",
    "C141_limit_partial",
    "C141_limit_refuted"
   ],
   "note": "No input exceeds the angle with at most five generated motions; with more, one is about one and a half times as large, whatever the vehicle (C141_limit_refuted). The functions pow and atan are parameters with the errors of SteerInputFloat_spec.v; correctly rounded ones are such (C141_met). Over the reals these are C35 and C55."
  },
  {
   "property": "C142",
   "status": "proved",
   "theorems": [
    "C142_near",
    "C142_chance",
    "C142_monotone",
    "C142_unreachable"
   ],
   "note": "In IEEE double precision. C142_chance is for values of the heuristic up to 2^400; C142_monotone has no such limit. The distribution of the numbers drawn is not modelled: the theorems say for which numbers the connection is tried."
  },
  {
   "property": "C143",
   "status": "partial",
   "theorems": [
    "C143_collision_partial",
    "C143_at_obstacle_refuted"
   ],
   "note": "Proved for samples at a distance of 2^-60 or more from the position of the obstacle. At this position the gradient and then the sample are NaN, and the step by which the smoother decides to stop does not show it (C143_at_obstacle_refuted). Over the reals the term is C62. The Voronoi term is not modelled in floating point."
  },
  {
   "property": "C15",
   "status": "proved",
   "theorems": [
    "C15_sum_is_constant",
    "C15_average_consistent",
    "C15_average_nonnegative",
    "C15_wrapped_goal_is_stale_refuted"
   ],
   "note": "The pair is consistent with constant sum. The code never forwards the goal to the wrapped heuristics (refuted as a separate claim)."
  },
  {
   "property": "C16",
   "status": "proved",
   "theorems": [
    "C16_neighbors_exact",
    "C16_adjacent_iff_touches",
    "C16_touches_symmetric",
    "C16_diagonal"
   ],
   "note": ""
  },
  {
   "property": "C17",
   "status": "proved",
   "theorems": [
    "C17_grid_exists",
    "C17_addresses_in_bounds_and_distinct",
    "C17_read_last_write"
   ],
   "note": ""
  },
  {
   "property": "C18",
   "status": "proved",
   "theorems": [
    "C18_rasterized_edge",
    "C18_polygon_edges",
    "C18_polygon_vertices",
    "C18_polygon_inside",
    "C18_composite_union"
   ],
   "note": "Bresenham line between the end cells; cell coordinates as unbounded integers."
  },
  {
   "property": "C19",
   "status": "proved",
   "theorems": [
    "C19_obstacle_ids"
   ],
   "note": "Any history of InitializeSize, AddObstacle, RemoveObstacle."
  },
  {
   "property": "C20",
   "status": "partial",
   "theorems": [
    "C20_occupied_iff_last_marked",
    "C20_occupied_iff_covered_refuted",
    "C20_moved_obstacle_refuted",
    "C20_resized_map_refuted",
    "C20_occupied_iff_covered_partial",
    "C20_value_is_an_id_partial"
   ],
   "note": "False as stated: overlapping obstacles, moved obstacles and a second InitializeSize break it. Exact effect of a history proved, and the property for non-moving obstacles that do not overlap on the cell."
  },
  {
   "property": "C21",
   "status": "partial",
   "theorems": [
    "C21_cell_round_trip_partial",
    "C21_cell_round_trip_refuted",
    "C21_rounded_local_partial",
    "C21_rounded_world_partial",
    "C21_power_of_two_partial",
    "C21_rounded_rows",
    "C21_local_world_inverse",
    "C21_frames_agree_partial",
    "C21_frames_agree_refuted",
    "C21_bounded"
   ],
   "note": "Holds in exact arithmetic when the size is set after the position; refuted in IEEE arithmetic (float product then truncation) and when the map is moved afterwards. With the roundings of the code the row is never more than one too low, and exact for resolutions that are powers of two."
  },
  {
   "property": "C22",
   "status": "partial",
   "theorems": [
    "C22_inside_iff_in_rectangle_refuted",
    "C22_inside_iff_in_rectangle_partial",
    "C22_inside_defined_partial",
    "C22_inside_defined_refuted"
   ],
   "note": "False as stated: truncation toward zero accepts a strip below and left of the map; exact region proved."
  },
  {
   "property": "C23",
   "status": "proved",
   "theorems": [
    "C23_bookkeeping_consistent"
   ],
   "note": "Every history of SetObstacle, UnsetObstacle, SetEdge, UnsetEdge, Update and changes of the occupancy matrix, every resolution of queue ties, every map whose squared distances fit an int. UB outcomes of the model are excluded by the conclusion."
  },
  {
   "property": "C24",
   "status": "proved",
   "theorems": [
    "C24_update_terminates",
    "C24_voronoi_update_terminates"
   ],
   "note": "Termination by a lexicographic measure; settled = nothing left in the queue."
  },
  {
   "property": "C25",
   "status": "partial",
   "theorems": [
    "C25_reported_obstacles_partial",
    "C25_removed_obstacle_refuted"
   ],
   "note": "False in general: after removing an obstacle a cell may keep reporting it (witness on an 8x14 map). Proved: without removals reported obstacles exist; for all histories every cell reports an obstacle cell of the map if one exists, and none if none exists."
  },
  {
   "property": "C26",
   "status": "partial",
   "theorems": [
    "C26_two_obstacles_exact_partial",
    "C26_region_exact_partial",
    "C26_error_bound_partial",
    "C26_exact_distance_refuted"
   ],
   "note": "False in general (three obstacles, 170 reported instead of 169). Proved: exact for at most two obstacles, exact within connected regions, and for all histories a squared-distance error factor of at most 4-2*sqrt 2."
  },
  {
   "property": "C27",
   "status": "proved",
   "theorems": [
    "C27_path_cost_range",
    "C27_foreign_edge_refuted"
   ],
   "note": "Over the reals. The edges must be set by the updates only: an obstacle that is made an edge from outside has an undefined cost (0/0). In single precision: C128."
  },
  {
   "property": "C28",
   "status": "proved",
   "theorems": [
    "C28_clearance_bounded",
    "C28_updated_map_clearance",
    "C28_two_obstacles_clearance",
    "C28_border",
    "C28_straight_paths"
   ],
   "note": "Over the reals. The abstract form for any nonexpansive clearance with lookup error eps, and its instance for the obstacle cells of an updated distance map, where eps is sqrt 2 cells plus the error of the map (C26)."
  },
  {
   "property": "C29",
   "status": "proved",
   "theorems": [
    "C29_terminates",
    "C29_truncation_point",
    "C29_zero_step_refuted",
    "C29_truncated_clearance"
   ],
   "note": "Over the reals. The refuted variant shows that the step must be positive."
  },
  {
   "property": "C30",
   "status": "partial",
   "theorems": [
    "C30_final_state_refuted",
    "C30_final_clearance_partial",
    "C30_no_motion_partial"
   ],
   "note": "False: with default parameters a short path that ends on an obstacle cell is accepted. Proved: the lower bound on the clearance of the final state, and the case of zero length."
  },
  {
   "property": "C31",
   "status": "proved",
   "theorems": [
    "C31_smoothing_keeps",
    "C31_failure_reason",
    "C31_smoothing_total",
    "C31_uninitialized"
   ],
   "note": "For any gradient terms, validity check and parameters, provided a zero gradient moves nothing (Example zero_gradient). The definedness of map lookups is a hypothesis of the totality theorem only. Not initialized: the path of the previous call stays, with status Failure."
  },
  {
   "property": "C32",
   "status": "proved",
   "theorems": [
    "C32_optimized_indices",
    "C32_other_samples_stay",
    "C32_sample_next_to_end_refuted"
   ],
   "note": "The indices are exact. Accesses in bounds: C31_smoothing_total. The curvature term also moves the neighbours of these samples: C32_sample_next_to_end_refuted refutes the stronger reading that no other sample moves."
  },
  {
   "property": "C33",
   "status": "proved",
   "theorems": [
    "C33_R2_connects",
    "C33_R2_interpolates",
    "C33_R2_truncates",
    "C33_SE2_connects",
    "C33_SE2_interpolates",
    "C33_SE2_truncates",
    "C33_negative_ratio_refuted"
   ],
   "note": "Over the reals; paths built by connections and truncations with ratios that are not negative. A negative ratio gives a negative length (refuted witness)."
  },
  {
   "property": "C34",
   "status": "proved",
   "theorems": [
    "C34_constant_steer_ends",
    "C34_constant_steer_truncate",
    "C34_distances_add",
    "C34_reverse_undoes",
    "C34_circle",
    "C34_line",
    "C34_bicycle_equations",
    "C34_speed",
    "C34_rear_axle_unit_speed",
    "C34_unit_speed_refuted"
   ],
   "note": "Over the reals. Also: the motion solves the bicycle equations at the rear axle; a path whose pose is not at the rear axle moves faster than its length says (C34_unit_speed_refuted), so that the guarantee of path validation (C28) needs the pose at the rear axle."
  },
  {
   "property": "C35",
   "status": "partial",
   "theorems": [
    "C35_turning_radius_partial",
    "C35_large_radius_refuted"
   ],
   "note": "Holds for every radius between the centre offset and 1e9. From 1e9 on the motion counts as straight: refuted."
  },
  {
   "property": "C36",
   "status": "partial",
   "theorems": [
    "C36_truncate_partial",
    "C36_truncate_ends",
    "C36_truncate_refuted",
    "C36_final_state_refuted"
   ],
   "note": "Refuted: the cut motion is reset (index bug) unless it is the last of five, so the interpolation of the truncated path stops at its beginning. The final state and the length are right."
  },
  {
   "property": "C37",
   "status": "proved",
   "theorems": [
    "C37_ends",
    "C37_drives_motions",
    "C37_motion_reached",
    "C37_turning_radius",
    "C37_circles",
    "C37_no_jump"
   ],
   "note": "Positive radius. Real arithmetic."
  },
  {
   "property": "C38",
   "status": "proved",
   "theorems": [
    "C38_word_reaches_goal"
   ],
   "note": "All 48 words, all poses, positive radius; real arithmetic, with not-a-number as an outcome."
  },
  {
   "property": "C39",
   "status": "partial",
   "theorems": [
    "C39_shortest_distance",
    "C39_shortest_path",
    "C39_optimal_path",
    "C39_optimal_shortest",
    "C39_straight_ahead",
    "C39_distance_unscaled_refuted"
   ],
   "note": "The minimum over all words is proved. Refuted: GetShortestDistance is not the length of the shortest path, but in units of the radius. That no other path of a car is shorter (optimality of the Reeds-Shepp words) is out of scope."
  },
  {
   "property": "C40",
   "status": "partial",
   "theorems": [
    "C40_cost_partial",
    "C40_forward_multiplier_refuted",
    "C40_pause_refuted"
   ],
   "note": "Refuted: with reverse multiplier 1 and switching cost 0 the forward multiplier is ignored; motions without length count as changes of direction. Otherwise proved."
  },
  {
   "property": "C41",
   "status": "proved",
   "theorems": [
    "C41_involutions",
    "C41_mirror_images",
    "C41_motions"
   ],
   "note": "All poses along the path, not only the end."
  },
  {
   "property": "C42",
   "status": "partial",
   "theorems": [
    "C42_interpolates_parts",
    "C42_interpolates_some_part",
    "C42_ends",
    "C42_direction_partial",
    "C42_direction_at_end_refuted",
    "C42_initial_state_refuted",
    "C42_empty"
   ],
   "note": "Length, interpolation and ends proved for every list of parts (joined end to end). The direction agrees with the part before the end; at the end it is undefined behaviour (refuted), and GetInitialState is never set (refuted)."
  },
  {
   "property": "C43",
   "status": "partial",
   "theorems": [
    "C43_truncate_partial",
    "C43_constant_steer_truncate",
    "C43_append_after_truncate_refuted"
   ],
   "note": "Truncating any number of times proved; appending after truncation refuted."
  },
  {
   "property": "C44",
   "status": "partial",
   "theorems": [
    "C44_cusps_partial",
    "C44_cusps_between_parts",
    "C44_inner_cusp_refuted"
   ],
   "note": "Refuted: cusps inside a part are returned relative to this part. Exact for parts without inner cusps."
  },
  {
   "property": "C45",
   "status": "proved",
   "theorems": [
    "C45_add_sub_inverse",
    "C45_add_sub_exact",
    "C45_monoid",
    "C45_headings_in_range",
    "C45_wrap_fuel",
    "C45_wrap_terminates_refuted"
   ],
   "note": "Over the reals. In double precision WrapTheta does not terminate for huge headings (refuted theorem)."
  },
  {
   "property": "C46",
   "status": "proved",
   "theorems": [
    "C46_cells",
    "C46_points_poses_states",
    "C46_hash_words"
   ],
   "note": "Number types with an equivalence as == (no NaN) that std::hash respects."
  },
  {
   "property": "C47",
   "status": "partial",
   "theorems": [
    "C47_modulo_partial",
    "C47_wrap_angle_partial",
    "C47_modulo_refuted"
   ],
   "note": "Holds over the reals; in double precision Modulo can return m itself."
  },
  {
   "property": "C48",
   "status": "proved",
   "theorems": [
    "C48_r2_validate_box",
    "C48_se2_validate_box",
    "C48_r2_enforce",
    "C48_se2_enforce",
    "C48_r2_enforce_empty",
    "C48_se2_enforce_empty",
    "C48_r2_uniform",
    "C48_se2_uniform",
    "C48_r2_uniform_everywhere",
    "C48_se2_uniform_everywhere",
    "C48_r2_gaussian",
    "C48_se2_gaussian",
    "C48_rounded_sample_refuted"
   ],
   "note": "Over the reals, for every draw in [0,1]. With IEEE rounding a uniform sample can exceed the upper bound (C48_rounded_sample_refuted)."
  },
  {
   "property": "C49",
   "status": "partial",
   "theorems": [
    "C49_sample_many_refuted",
    "C49_no_sample_partial"
   ],
   "note": "False: the vector is reserved but never resized, so that every call with n > 0 writes out of bounds. Only n = 0 is defined."
  },
  {
   "property": "C50",
   "status": "partial",
   "theorems": [
    "C50_explores_reachable",
    "C50_shortest_partial",
    "C50_free_map",
    "C50_goal_outside",
    "C50_shortest_refuted",
    "C50_resized_map_refuted"
   ],
   "note": "Explored cells are exactly the reachable ones; stored costs are lengths of walks, at most sqrt 2 times the shortest, and exactly shortest without obstacles. Refuted on a map with a wall: the decrease-key test compares the stored cost with itself. Refuted also for maps resized after construction. Exact arithmetic, by any type of numbers that embeds in the reals. In single precision: C127."
  },
  {
   "property": "C51",
   "status": "partial",
   "theorems": [
    "C51_in_bounds_partial",
    "C51_beyond",
    "C51_in_bounds_refuted"
   ],
   "note": "Refuted for every heading difference at or below minus half an angular resolution: the index is negative. In bounds otherwise. Resolutions and distances such that the indices are ints."
  },
  {
   "property": "C52",
   "status": "partial",
   "theorems": [
    "C52_seven_headings",
    "C52_headings_refuted",
    "C52_positions_refuted",
    "C52_positions_partial",
    "C52_headings_partial"
   ],
   "note": "Refuted for every resolution: seven heading cells only, because the index of the heading is wrapped as if it were an angle, and cells next to the axes of double size. The partial theorems say what is left."
  },
  {
   "property": "C53",
   "status": "proved",
   "theorems": [
    "C53_motions"
   ],
   "note": "For every validator, heuristic, Voronoi field and random draw. Exact real arithmetic."
  },
  {
   "property": "C54",
   "status": "partial",
   "theorems": [
    "C54_samples_partial",
    "C54_gaps_partial",
    "C54_cusps_partial",
    "C54_end_refuted",
    "C54_cusps_refuted",
    "C54_gaps_refuted"
   ],
   "note": "Refuted: the end pose is missed whenever the length exceeds a multiple of the step by more than its half; two near cusps hide all later ones; gaps up to two steps. Proved: starts at the initial pose, follows the motions, gaps below two steps, separated cusps are kept."
  },
  {
   "property": "C55",
   "status": "partial",
   "theorems": [
    "C55_steering_partial",
    "C55_steering_refuted",
    "C55_largest"
   ],
   "note": "Holds for at most 5 motions (the default), refuted for every larger number."
  },
  {
   "property": "C56",
   "status": "proved",
   "theorems": [
    "C56_success",
    "C56_success_R2",
    "C56_terminates",
    "C56_failure",
    "C56_iterations_refuted",
    "C56_counter_refuted",
    "C56_stored_path_refuted",
    "C56_success_any_equality",
    "C56_terminates_any_equality"
   ],
   "note": "Every sampler, validator and in-range nearest-neighbour answer. Findings: one iteration more than the budget is run, the int counter overflows for budgets of INT_MAX or more, and the path stored with a repeated state need not start at its parent."
  },
  {
   "property": "C57",
   "status": "partial",
   "theorems": [
    "C57_R2_partial",
    "C57_covered_partial",
    "C57_terminates",
    "C57_validated_refuted",
    "C57_validated_path_refuted",
    "C57_costs_refuted",
    "C57_any_equality_partial",
    "C57_terminates_any_equality"
   ],
   "note": "Refuted in general: with all candidates blocked a rejected connection is kept, and proposing a state again overwrites its cost but not its parent. Proved for straight connections and exact neighbours: every step is accepted, each recorded cost is the length of an accepted route and at most the branch length, and equals parent cost plus length when no state is proposed twice. The any_equality theorems hold for equalities that are only reflexive, such as that of doubles, and for costs in any arithmetic without infinity."
  },
  {
   "property": "C58",
   "status": "proved",
   "theorems": [
    "C58_forest",
    "C58_calls_return",
    "C58_depth",
    "C58_descendant",
    "C58_add",
    "C58_remove",
    "C58_replace",
    "C58_reparent",
    "C58_preorder",
    "C58_postorder",
    "C58_siblings",
    "C58_reparent_to_itself_refuted",
    "C58_replace_loses_children_refuted"
   ],
   "note": "Heap model with parent pointers and owned children; every history of legitimate calls gives a forest, with the effect of each call. The two _refuted theorems show the provisos are needed: Reparent of a node to itself makes a cycle, and ReplaceChild with adoption destroys children the replacing node already had."
  },
  {
   "property": "C59",
   "status": "proved",
   "theorems": [
    "C59_one_instance",
    "C59_no_deadlock",
    "C59_mutual_exclusion",
    "C59_release_refuted",
    "C59_data_race_refuted",
    "C59_plain_singleton_refuted",
    "C59_plain_singleton_one_thread"
   ],
   "note": "Small-step interleaving model with sequentially consistent memory. The _refuted theorems show what is outside of the claim: Release concurrent with Get dereferences null; the unlocked check is a data race in the C++ memory model; the plain Singleton, used by the profiler, builds two instances with two threads."
  },
  {
   "property": "C60",
   "status": "proved",
   "theorems": [
    "C60_traces",
    "C60_one_at_a_time",
    "C60_json_partial",
    "C60_json_refuted"
   ],
   "note": "Interleaving model with the mutex and stream writes as steps; refinement to sessions run one call at a time. Beyond the property: traces are JSON when names are valid JSON string bodies (C60_json_partial); names are not escaped, so a backslash gives invalid JSON (C60_json_refuted)."
  },
  {
   "property": "C61",
   "status": "partial",
   "theorems": [
    "C61_no_quote",
    "C61_removed_partial",
    "C61_exact",
    "C61_adjacent_refuted"
   ],
   "note": "No quote, bounds and length hold for all inputs. The removal is complete only if the text to remove does not occur twice in a row: the second of two adjacent occurrences is kept (C61_adjacent_refuted). C61_exact describes the result for all inputs."
  },
  {
   "property": "C62",
   "status": "proved",
   "theorems": [
    "C62_smoothing_gradient",
    "C62_collision_gradient",
    "C62_voronoi_gradient",
    "C62_field_is_path_cost",
    "C62_curvature_gradient"
   ],
   "note": "Over the reals, for a fixed nearest obstacle and edge. Divisions by zero (a sample on an obstacle centre, two equal samples, a turn of 180 degrees) are the outcome UB in the model."
  },
  {
   "property": "C63",
   "status": "partial",
   "theorems": [
    "C63_path_term_refuted",
    "C63_path_term_factor_partial",
    "C63_path_term_gradient_partial"
   ],
   "note": "Refuted: the sign of the term is wrong; every step multiplies the distance to the original position by 1 + rate * weight."
  },
  {
   "property": "C64",
   "status": "partial",
   "theorems": [
    "C64_direction_partial",
    "C64_cusps_partial",
    "C64_cusps_are_changes",
    "C64_pause_cusp_refuted",
    "C64_initial_direction_refuted"
   ],
   "note": "Exact if no motion is without length; refuted otherwise."
  },
  {
   "property": "C65",
   "status": "partial",
   "theorems": [
    "C65_value_partial",
    "C65_multiplier_refuted",
    "C65_overestimate_refuted"
   ],
   "note": "Refuted: multipliers below 1 are not applied to the distance, and octile distances overestimate straight drives even on an empty map. Proved: always finite, at least the distance to the goal, otherwise the cost of a walk on the grid. In single precision: C127."
  },
  {
   "property": "C66",
   "status": "partial",
   "theorems": [
    "C66_beyond_partial",
    "C66_cost_exists",
    "C66_rounding_refuted",
    "C66_reversed_refuted"
   ],
   "note": "Refuted: rounding to a farther node, and a table with the costs from goal to state instead of state to goal. Proved beyond the table."
  },
  {
   "property": "C67",
   "status": "partial",
   "theorems": [
    "C67_start_at_goal_refuted"
   ],
   "note": "Refuted for every map and parameter set: an exception leaves SearchPath (interpolation of an empty path)."
  },
  {
   "property": "C68",
   "status": "partial",
   "theorems": [
    "C68_stale_path_refuted",
    "C68_blocked_start_refuted",
    "C68_failed_search_partial"
   ],
   "note": "Refuted for every successful search: after raising the safe radius the next search fails, and the former path is still returned. Proved: a failed search leaves the path as it was."
  },
  {
   "property": "C69",
   "status": "proved",
   "theorems": [
    "C69_terminates",
    "C69_voronoi_ends"
   ],
   "note": "With the validator of the code, whose bounds limit the reachable cells. Each expansion ends if the samples can be read."
  },
  {
   "property": "C70",
   "status": "partial",
   "theorems": [
    "C70_length_partial",
    "C70_transition_costs_partial",
    "C70_switching_refuted",
    "C70_voronoi_refuted"
   ],
   "note": "Refuted: the switching cost is compared against the motion itself and never charged; each sample overwrites the Voronoi cost."
  },
  {
   "property": "C71",
   "status": "partial",
   "theorems": [
    "C71_goal_heading_partial",
    "C71_goal_heading_refuted"
   ],
   "note": "Refuted at half a turn; holds for other wrapped headings."
  },
  {
   "property": "C72",
   "status": "proved",
   "theorems": [
    "C72_clearance",
    "C72_map_clearance",
    "C72_samples"
   ],
   "note": "Also for truncated motions, through C29_truncated_clearance."
  },
  {
   "property": "C73",
   "status": "proved",
   "theorems": [
    "C73_circle",
    "C73_regular_polygon",
    "C73_rectangle",
    "C73_rigid"
   ],
   "note": "From three vertices on. Exact real arithmetic."
  },
  {
   "property": "C74",
   "status": "proved",
   "theorems": [
    "C74_boundary_follows_outline",
    "C74_boundary_inside",
    "C74_boundary_defined",
    "C74_composite"
   ],
   "note": "Exact real arithmetic. Next to the border cells may be missing (C22)."
  },
  {
   "property": "C75",
   "status": "proved",
   "theorems": [
    "C75_matrix_and_distance_map_agree",
    "C75_reports_obstacles"
   ],
   "note": "Histories call the API in a meaningful order (size before obstacles, at least two vertices), as world_used states. Cells shared by overlapping obstacles are cleared by a removal (C20), which world_covered takes into account."
  },
  {
   "property": "C76",
   "status": "proved",
   "theorems": [
    "C76_validated_paths",
    "C76_planned_motions"
   ],
   "note": "Points of the outline next to the border of the map are excluded, as the map does not draw them."
  },
  {
   "property": "C77",
   "status": "partial",
   "theorems": [
    "C77_hollow_refuted",
    "C77_stays_outside_partial",
    "C76_planned_motions"
   ],
   "note": "Refuted: obstacles are drawn hollow, so paths inside a large one are accepted. Proved: a path that starts outside does not enter a polygon of the library, if the safe radius exceeds the discretization errors."
  },
  {
   "property": "C78",
   "status": "proved",
   "theorems": [
    "C78_planned_path"
   ],
   "note": "Histories call the map in a meaningful order (world_used). Resizing the map after Initialize is excluded. The last pose of the path is a sample, so that it may be short of the goal."
  },
  {
   "property": "C79",
   "status": "proved",
   "theorems": [
    "C79_uninitialized_search_fails",
    "C79_null_validator"
   ],
   "note": ""
  },
  {
   "property": "C80",
   "status": "partial",
   "theorems": [
    "C80_smoother_parameters_refuted",
    "C80_smoother_parameters_partial"
   ],
   "note": "Refuted: Initialize resets them to the defaults. Proved: set after Initialize, they stay."
  },
  {
   "property": "C81",
   "status": "partial",
   "theorems": [
    "C81_validator_keeps_obstacles_refuted",
    "C81_added_again_refuted",
    "C81_validator_keeps_obstacles_partial"
   ],
   "note": "Refuted: the constructor sets the size of the map, which clears it but keeps the registrations, so adding the same obstacles again has no effect. Proved: obstacles added when not registered, and kept since, are on the map."
  },
  {
   "property": "C82",
   "status": "partial",
   "theorems": [
    "C82_distances_after_resize_refuted",
    "C82_search_after_resize_refuted",
    "C82_search_after_update_partial"
   ],
   "note": "Refuted: SearchPath updates the distance map from before the resize; on the new one all free cells count as infinitely far, and a path through an obstacle is found. Proved: with an update of the map by the user just before the search, the margin holds."
  },
  {
   "property": "C83",
   "status": "proved",
   "theorems": [
    "C83_search_again"
   ],
   "note": "The random generator is put back in its former state (the code uses std::rand)."
  },
  {
   "property": "C84",
   "status": "partial",
   "theorems": [
    "C84_search_reads_table_refuted",
    "C84_search_reads_table_partial"
   ],
   "note": "Refuted: the table of the heuristic is read outside of its bounds at the start whenever the goal is near and its heading is to the right of the start's. Proved: the other headings have an entry; that the search only asks for those cannot be expected."
  },
  {
   "property": "C85",
   "status": "proved",
   "theorems": [
    "C85_valid_start"
   ],
   "note": ""
  },
  {
   "property": "C86",
   "status": "proved",
   "theorems": [
    "C86_well_formed",
    "C86_not_initialized",
    "C86_shows_distances",
    "C86_goal_white",
    "C86_farthest_black",
    "C86_goal_outside"
   ],
   "note": ""
  },
  {
   "property": "C87",
   "status": "proved",
   "theorems": [
    "C87_answers_inside",
    "C87_distance",
    "C87_names_obstacle",
    "C87_no_obstacle",
    "C87_edge",
    "C87_path_cost"
   ],
   "note": ""
  },
  {
   "property": "C88",
   "status": "proved",
   "theorems": [
    "C88_well_formed",
    "C88_colors",
    "C88_hues_differ"
   ],
   "note": "Different hues are proved with the function abs for double; with the one for int, hues may coincide."
  },
  {
   "property": "C89",
   "status": "proved",
   "theorems": [
    "C89_same_answers",
    "C89_no_undefined_behaviour",
    "C89_pointers",
    "C89_no_leak"
   ],
   "note": ""
  },
  {
   "property": "C90",
   "status": "proved",
   "theorems": [
    "C90_nodes",
    "C90_offered",
    "C90_solution",
    "C90_expanded",
    "C90_motions",
    "C90_clearance"
   ],
   "note": ""
  },
  {
   "property": "C91",
   "status": "proved",
   "theorems": [
    "C91_costs_are_ordered",
    "C91_no_undefined_behaviour",
    "C91_success_is_a_path",
    "C91_failure_means_unreachable",
    "C91_dijkstra_is_cheapest"
   ],
   "note": ""
  },
  {
   "property": "C92",
   "status": "partial",
   "theorems": [
    "C92_consistent_heuristic_is_cheapest_refuted",
    "C92_consistent_heuristic_is_near_cheapest_partial",
    "C92_rounded_heuristic_is_near_cheapest_partial"
   ],
   "note": "False: a large heuristic absorbs the difference of two costs. Proved instead: the path is cheapest up to a factor of 1 + 10 N / 2^53 for paths of at most N steps."
  },
  {
   "property": "C93",
   "status": "proved",
   "theorems": [
    "C93_measured_grid_near_shortest",
    "C93_euclidean_grid_near_shortest",
    "C93_distance_measured"
   ],
   "note": ""
  },
  {
   "property": "C94",
   "status": "proved",
   "theorems": [
    "C94_path_visits_no_state_twice",
    "C94_path_length",
    "C94_grid_path",
    "C94_hybrid_motions"
   ],
   "note": ""
  },
  {
   "property": "C95",
   "status": "proved",
   "theorems": [
    "C95_no_shorter_curve",
    "C95_no_cheaper_curve"
   ],
   "note": ""
  },
  {
   "property": "C96",
   "status": "proved",
   "theorems": [
    "C96_symmetric",
    "C96_zero",
    "C96_nonnegative",
    "C96_headings",
    "C96_placed",
    "C96_scaled",
    "C96_mirrored",
    "C96_about_face",
    "C96_heading_change"
   ],
   "note": "The triangle inequality is not part of the claim: it needs that no path of bounded curvature at all is shorter, the theorem of Reeds and Shepp."
  },
  {
   "property": "C97",
   "status": "proved",
   "theorems": [
    "C97_explored_are_expanded",
    "C97_path_is_explored",
    "C97_failure_explores_everything",
    "C97_explores_no_more_than_needed",
    "C97_better_heuristic_explores_less",
    "C97_grid_explored",
    "C97_grid_failure_explores_everything",
    "C97_grid_explores_no_more_than_needed"
   ],
   "note": ""
  },
  {
   "property": "C98",
   "status": "proved",
   "theorems": [
    "C98_usual_maps",
    "C98_grid_size",
    "C98_distance_maps",
    "C98_lines",
    "C98_stability"
   ],
   "note": "Function by function; the other models use unbounded integers, with a check in SquaredDistance and in conversions from double."
  },
  {
   "property": "C99",
   "status": "proved",
   "theorems": [
    "C99_explored_are_expanded",
    "C99_path_is_explored",
    "C99_failure_explores_a_side"
   ],
   "note": ""
  }
 ]
}