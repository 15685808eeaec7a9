{
 "claims": [
  {
   "property": "C01",
   "status": "proved",
   "theorems": [
    "ordering_permutes"
   ],
   "note": "all strategies, any legal std::sort result, any point/width type (NaN included)"
  },
  {
   "property": "C02",
   "status": "proved",
   "theorems": [
    "ordering_positions"
   ],
   "note": "instance k = Snake of the exact-position theorem; n=1 is excluded because the call is undefined there (C03)"
  },
  {
   "property": "C03",
   "status": "partial",
   "theorems": [
    "snake_safe_refuted",
    "ordering_outcomes",
    "ordering_succeeds_iff"
   ],
   "note": "FINDING, refuted as stated: exactly one swath is undefined behaviour (std::reverse(begin+2,end) on one element). Proved: safe for every other length."
  },
  {
   "property": "C04",
   "status": "proved",
   "theorems": [
    "ordering_positions"
   ],
   "note": "instance k = Spiral s of the exact-position theorem with spiral_pos"
  },
  {
   "property": "C05",
   "status": "partial",
   "theorems": [
    "spiral_size_safe_refuted",
    "ordering_outcomes"
   ],
   "note": "FINDING, refuted as stated: setSpiralSize(0) then sorting divides by zero. Proved: every size >= 1 is safe."
  },
  {
   "property": "C06",
   "status": "proved",
   "theorems": [
    "custom_order_exact",
    "ordering_positions",
    "ordering_succeeds_iff"
   ],
   "note": "non-empty list; for the empty list genSortedSwaths returns before the check"
  },
  {
   "property": "C07",
   "status": "proved",
   "theorems": [
    "ordering_flags_alternate",
    "ordering_positions"
   ],
   "note": "flags alternate; same_swath in ordering_positions ties the flag to the reversal of the line"
  },
  {
   "property": "C08",
   "status": "partial",
   "theorems": [
    "geometric_alternation_refuted",
    "geometric_alternation_consistent"
   ],
   "note": "FINDING, refuted as stated: (0,0)-(10,0) and (10,1)-(0,1) are both driven left to right. Proved for consistently drawn swaths (C81)."
  },
  {
   "property": "C09",
   "status": "partial",
   "theorems": [
    "variant_bit1_refuted",
    "variant_mod_4",
    "variant_bit1_reverses",
    "order_pos_first",
    "variant_bit1_custom_no_effect",
    "ordering_positions"
   ],
   "note": "FINDING, refuted for CustomOrder not starting with swath 0: bit 1 has no effect. Proved for the other strategies (C82)."
  },
  {
   "property": "C10",
   "status": "partial",
   "theorems": [
    "clone_type_refuted",
    "clone_fails_refuted",
    "clone_exact"
   ],
   "note": "FINDING, refuted as stated: the swath type is lost, and a swath without width cannot be cloned. Exact behaviour proved (C83)."
  },
  {
   "property": "C11",
   "status": "partial",
   "theorems": [
    "swath_eq_symmetric_refuted",
    "swath_neq_negation_refuted",
    "swath_le_ge_refuted",
    "swath_cmp_same_direction",
    "swath_eq_own_reverse",
    "swath_eq_meaning"
   ],
   "note": "FINDING, refuted as stated for swaths with different direction flags. Proved for equal flags (C84)."
  },
  {
   "property": "C12",
   "status": "proved",
   "theorems": [
    "append_lines_ids"
   ],
   "note": "sizes below 2^31 (id is an int)"
  },
  {
   "property": "C13",
   "status": "partial",
   "theorems": [
    "copy_independent_refuted",
    "values_without_copies",
    "clone_apart"
   ],
   "note": "FINDING, refuted as stated: copies share the OGR object, so reversing a copy (or a flattened or appended swath, or the LineString it was made from) reverses the points of the original but not its direction flag, and moving a container with two copies moves them twice; clone() gives independence (C189, C190)"
  },
  {
   "property": "C14",
   "status": "proved",
   "theorems": [
    "global_index_is_flatten_index",
    "flatten_is_concatenation",
    "sizeTotal_is_flatten_size",
    "sizeTotal_wraps"
   ],
   "note": "sizeTotal is right for totals below 2^31 (its accumulator is an int, beyond that it wraps: sizeTotal_wraps); getSwath without bound"
  },
  {
   "property": "C15",
   "status": "proved",
   "theorems": [
    "shortest_cost_minimal",
    "history_cost_correct"
   ],
   "note": "costs in [0, INF), INF <= 2^62; the overflow check of every addition is part of the model"
  },
  {
   "property": "C16",
   "status": "proved",
   "theorems": [
    "shortest_path_correct",
    "path_matrix_correct",
    "history_cost_correct"
   ],
   "note": "termination of the next-hop walk included (zero-cost cycles allowed)"
  },
  {
   "property": "C17",
   "status": "partial",
   "theorems": [
    "history_removal_refuted",
    "history_answers_fresh"
   ],
   "note": "FINDING, refuted as stated: removeEdge/removeDirectedEdge keep the cached matrices, so a removed edge is still reported. Proved for histories of insertions and queries (C18)."
  },
  {
   "property": "C18",
   "status": "proved",
   "theorems": [
    "history_answers_fresh",
    "history_cost_correct"
   ],
   "note": "mutation of the matrices through the references returned by getCosts/getPaths is not modelled"
  },
  {
   "property": "C19",
   "status": "partial",
   "theorems": [
    "path_query_safe_refuted",
    "path_query_safe_iff",
    "all_simple_paths"
   ],
   "note": "FINDING, refuted as stated: a node without outgoing edges or sparse ids index out of range. Exact condition proved (C86); allPathsBetween is proved safe under it."
  },
  {
   "property": "C20",
   "status": "proved",
   "theorems": [
    "all_simple_paths"
   ],
   "note": "for any iteration order of the hash map"
  },
  {
   "property": "C21",
   "status": "proved",
   "theorems": [
    "point_index_bijection",
    "point_index_stable"
   ],
   "note": "for any key comparison that is an equivalence (see C22/C88); histories of the point interface, including removals and queries"
  },
  {
   "property": "C22",
   "status": "partial",
   "theorems": [
    "point_key_refuted",
    "point_nodes_order_refuted",
    "grid_points_equal"
   ],
   "note": "FINDING, refuted as stated: equal points (within 1e-7) can have different hashes, equality is not transitive, and hashing a point with negative x is an out-of-range float to size_t conversion. Proved for grid points (C88)."
  },
  {
   "property": "C23",
   "status": "proved",
   "theorems": [
    "history_edges_exact",
    "remove_exact",
    "add_exact"
   ],
   "note": ""
  },
  {
   "property": "C24",
   "status": "proved",
   "theorems": [
    "route_interleaved"
   ],
   "note": "building calls only; mutation through the references returned by the accessors is not modelled"
  },
  {
   "property": "C25",
   "status": "proved",
   "theorems": [
    "route_line_in_order",
    "route_total_length"
   ],
   "note": "the line is proved as a list of points; length() is the length of that line (route_total_length)"
  },
  {
   "property": "C26",
   "status": "proved",
   "theorems": [
    "route_end_points",
    "route_end_point_refuted"
   ],
   "note": "precondition as in the statement; without it the end point is the default point (route_end_point_refuted)"
  },
  {
   "property": "C27",
   "status": "proved",
   "theorems": [
    "add_swath_connects",
    "add_swath_graph_other"
   ],
   "note": "graph built from two-way edges (C87); unknown end points raise out_of_range"
  },
  {
   "property": "C28",
   "status": "proved",
   "theorems": [
    "coverage_route_complete",
    "genRoute_complete"
   ],
   "note": "for swath end points, middles and depot that are pairwise different nodes, positive widths and a shortest-path graph that answers queries; genRoute_complete (C91) discharges the last condition"
  },
  {
   "property": "C29",
   "status": "partial",
   "theorems": [
    "transform_short_refuted",
    "no_swaths_refuted",
    "start_on_swath_refuted",
    "start_on_first_swath_refuted",
    "planner_inputs_refuted",
    "coverage_route_complete"
   ],
   "note": "FINDING, refuted as stated: a start/end point on a swath end makes another node the depot and loses a swath (or raises out_of_range); no swaths, a one-node answer or a null solution are undefined behaviour. Safe case proved in coverage_route_complete / genRoute_complete (C91)."
  },
  {
   "property": "C30",
   "status": "proved",
   "theorems": [
    "route_cost_is_length"
   ],
   "note": "exact arithmetic; swaths with at least two points (otherwise getInAngle raises out_of_range)"
  },
  {
   "property": "C31",
   "status": "partial",
   "theorems": [
    "route_cost_misses_jump_refuted",
    "route_cost_deficit"
   ],
   "note": "FINDING, refuted as stated: addSwath, addConnection(), addSwath gives an empty inner connection whose jump costs nothing. Exact deficit proved (C95)."
  },
  {
   "property": "C32",
   "status": "partial",
   "theorems": [
    "overlap_pairs_refuted",
    "overlap_cost_exact",
    "overlap_cost_bound"
   ],
   "note": "FINDING, refuted as stated from three swaths on. Exact behaviour proved (C96)."
  },
  {
   "property": "C33",
   "status": "partial",
   "theorems": [
    "nsm_cost_refuted",
    "nsm_cost_exact",
    "nsm_cost_good_sizes"
   ],
   "note": "FINDING, refuted as stated: (0-1) % 6 = 3 in 64-bit arithmetic, so a pentagon gets a diagonal counted. Exact behaviour proved (C97)."
  },
  {
   "property": "C34",
   "status": "partial",
   "theorems": [
    "field_coverage_empty_refuted",
    "swath_objectives_additive",
    "field_objectives_defined"
   ],
   "note": "FINDING, refuted for FieldCoverage with an empty list (swaths[0]). Additivity and empty cost 0 proved; definedness exact in C98."
  },
  {
   "property": "C35",
   "status": "proved",
   "theorems": [
    "lines_leave_no_gap"
   ],
   "note": "exact arithmetic; lines before clipping; cells of positive height across the driving direction"
  },
  {
   "property": "C36",
   "status": "partial",
   "theorems": [
    "generation_terminates_refuted",
    "nonpositive_width_hangs",
    "line_count"
   ],
   "note": "FINDING, refuted as stated: a width of 0 or less never ends; see C104 for the exact statement"
  },
  {
   "property": "C37",
   "status": "partial",
   "theorems": [
    "overlap_setting_refuted",
    "overlap_adds_only_outside"
   ],
   "note": "FINDING, refuted as stated: the extra line of the overlap setting always lies outside the field and is clipped away; see C107"
  },
  {
   "property": "C38",
   "status": "proved",
   "theorems": [
    "brute_force_best"
   ],
   "note": "exact arithmetic; cost function total on the grid"
  },
  {
   "property": "C39",
   "status": "partial",
   "theorems": [
    "brute_force_safe_refuted",
    "brute_force_safe_iff",
    "brute_force_outcomes"
   ],
   "note": "FINDING, refuted as stated: undefined for step 0 and above 2 pi, length_error below 0; see C105"
  },
  {
   "property": "C40",
   "status": "partial",
   "theorems": [
    "headland_rings_refuted",
    "headland_rings_refuted_zero",
    "headland_rings_out2in",
    "headland_rings_in2out",
    "headland_area"
   ],
   "note": "FINDING, refuted as stated: inside out with n = 0 returns a ring outside the field, and parts too thin for the innermost ring lose their outer rings; see C108"
  },
  {
   "property": "C41",
   "status": "partial",
   "theorems": [
    "headland_pick_refuted",
    "headland_pick_iff"
   ],
   "note": "FINDING, refuted as stated: n <= 0 reads out of bounds; see C106"
  },
  {
   "property": "C42",
   "status": "proved",
   "theorems": [
    "path_additive",
    "self_append"
   ],
   "note": "exact arithmetic; the argument is a different path object, see C111"
  },
  {
   "property": "C43",
   "status": "partial",
   "theorems": [
    "path_at_on_path",
    "path_at_ends",
    "path_at_height_refuted"
   ],
   "note": "proved in the plane, exact arithmetic; FINDING, refuted for the height: the result always has z = 0"
  },
  {
   "property": "C44",
   "status": "partial",
   "theorems": [
    "path_at_length_refuted",
    "path_at_float"
   ],
   "note": "FINDING, refuted as stated: lengths 0.1, 0.2, 0.3 give the default state at the origin. What holds with doubles: up to a 2^-50 part per state before its length, a path is evaluated in one of its states and at the length asked for up to a 2^-52 part per state (path_at_float)"
  },
  {
   "property": "C45",
   "status": "partial",
   "theorems": [
    "discretize_swath_keeps",
    "discretize_swath_height_refuted",
    "discretize_swath_zero_refuted"
   ],
   "note": "proved except for the height, exact arithmetic, every step other than 0; FINDING, refuted for the height: it drifts towards 0 along the state"
  },
  {
   "property": "C46",
   "status": "proved",
   "theorems": [
    "reduce_groups",
    "reduce_idempotent"
   ],
   "note": "exact arithmetic for the sums; idempotence also for doubles"
  },
  {
   "property": "C47",
   "status": "proved",
   "theorems": [
    "populate_states"
   ],
   "note": "exact arithmetic; also no-length states, which are dropped; angles of moderate size"
  },
  {
   "property": "C48",
   "status": "partial",
   "theorems": [
    "discretize_empties_refuted",
    "discretize_keeps_length"
   ],
   "note": "FINDING, refuted as stated: a path of three or more states shorter than step / 10 becomes empty; see C119"
  },
  {
   "property": "C49",
   "status": "partial",
   "theorems": [
    "spline_interpolates_refuted",
    "spline_jump_refuted",
    "spline_at_knots"
   ],
   "note": "FINDING, refuted as stated: d_vec_[0] is cleared, so the value at the second knot is wrong (1.5 instead of 1) and the curve jumps there; proved: exact values at all knots"
  },
  {
   "property": "C50",
   "status": "proved",
   "theorems": [
    "spline_is_natural",
    "spline_divisors_positive",
    "spline_at_knots"
   ],
   "note": "exact arithmetic"
  },
  {
   "property": "C51",
   "status": "partial",
   "theorems": [
    "load_nonfinite_refuted",
    "save_load_rounded",
    "load_stops"
   ],
   "note": "FINDING, refuted as stated for paths with an infinite or undefined number: everything from that state on is silently lost. For finite numbers up to 2^1023 it holds (C169). Opening and writing files is taken to work."
  },
  {
   "property": "C52",
   "status": "proved",
   "theorems": [
    "normal_turn",
    "turn_connects"
   ],
   "note": "exact arithmetic"
  },
  {
   "property": "C53",
   "status": "partial",
   "theorems": [
    "cache_transparent_refuted",
    "cache_discretization_refuted",
    "cached_answer"
   ],
   "note": "FINDING, refuted as stated: the key has neither the turning velocity nor the discretization, and rounds the rest to 1/1000, so stored turns of other requests are returned; what is returned is C54"
  },
  {
   "property": "C54",
   "status": "proved",
   "theorems": [
    "cache_provenance",
    "cached_answer"
   ],
   "note": "the generator is any function of robot, discretization, distance and angles; 2/1000 when the signs differ"
  },
  {
   "property": "C55",
   "status": "proved",
   "theorems": [
    "retry_bounded",
    "loop_meaning"
   ],
   "note": "get_controls/get_path (steering_functions) are oracles; non-negative curvature limits"
  },
  {
   "property": "C56",
   "status": "proved",
   "theorems": [
    "steer_to_path",
    "steer_length"
   ],
   "note": "exact arithmetic; the driving direction is cast, see C125"
  },
  {
   "property": "C57",
   "status": "proved",
   "theorems": [
    "planned_swaths",
    "planned_route"
   ],
   "note": "exact arithmetic; generator is an oracle making turn states only (as steerStatesToPath does)"
  },
  {
   "property": "C58",
   "status": "partial",
   "theorems": [
    "plan_connection_only_refuted",
    "plan_defined"
   ],
   "note": "FINDING, refuted as stated: a route holding only a connection makes planPath call back() on an empty vector; plan_defined is the true version"
  },
  {
   "property": "C59",
   "status": "proved",
   "theorems": [
    "simplified_connection"
   ],
   "note": "exact arithmetic; end_of_clothoid is an oracle"
  },
  {
   "property": "C60",
   "status": "proved",
   "theorems": [
    "mod_2pi_normalises",
    "mod_float",
    "mod_2pi_float",
    "mod_not_finite"
   ],
   "note": "binary64, with std::fmod computed by integers: in range, and congruent up to 2^-49 (mod_2pi_float). For any rounding: std::fmod is exact, the only rounding is the addition; range proved for every monotone rounding that keeps 0; 2*pi is any positive modulus"
  },
  {
   "property": "C61",
   "status": "partial",
   "theorems": [
    "angle_continuity_refuted",
    "angle_continuity",
    "angle_continuity_vector",
    "angle_continuity_limits"
   ],
   "note": "FINDING, refuted for huge angles (conversion to int out of range) and the empty vector (val[0]). Proved up to 1e10 (C93); exact arithmetic"
  },
  {
   "property": "C62",
   "status": "proved",
   "theorems": [
    "angle_difference_metric",
    "angle_average_half"
   ],
   "note": "exact arithmetic"
  },
  {
   "property": "C63",
   "status": "proved",
   "theorems": [
    "rotation_rigid"
   ],
   "note": "exact arithmetic; horizontal coordinates (z is set to 0)"
  },
  {
   "property": "C64",
   "status": "partial",
   "theorems": [
    "closest_single_point_refuted",
    "closest_sloped_refuted",
    "closest_in_segment",
    "closest_on_line",
    "closest_on_border",
    "closest_on_borders",
    "angle_errors"
   ],
   "note": "FINDING, refuted as stated: one-point lines are undefined, and on sloped lines the projection is made in space while the choice is made in the plane. Segment case proved in full; level lines and borders proved (C94)."
  },
  {
   "property": "C65",
   "status": "proved",
   "theorems": [
    "intersection_on_both"
   ],
   "note": "exact arithmetic, planar"
  },
  {
   "property": "C66",
   "status": "proved",
   "theorems": [
    "polar_round_trip"
   ],
   "note": "exact arithmetic, x and y; the height is dropped (polar_height_refuted)"
  },
  {
   "property": "C67",
   "status": "partial",
   "theorems": [
    "convex_refuted",
    "convex_straight_refuted",
    "convex_test"
   ],
   "note": "FINDING, refuted as stated: the start vertex is not looked at (a dart starting at its notch is convex), and a straight vertex counts as a left turn (a clockwise square with a point on an edge is not); the exact meaning is C137"
  },
  {
   "property": "C68",
   "status": "partial",
   "theorems": [
    "moveTo_refuted",
    "scale_refuted",
    "moveTo_exact",
    "moveTo_ignored",
    "scale_line"
   ],
   "note": "FINDING, refuted as stated: a point whose new position is within 1e-7 in every coordinate is not written back; exact version in C134"
  },
  {
   "property": "C69",
   "status": "partial",
   "theorems": [
    "setGeometry_refuted",
    "setGeometry_cells_refuted",
    "setGeometry_mpoint_refuted",
    "setGeometry_mline",
    "setGeometry_cells"
   ],
   "note": "FINDING, refuted as stated: indices past the end append too few or too many elements, and MultiPoint reads out of bounds; exact version in C135"
  },
  {
   "property": "C70",
   "status": "partial",
   "theorems": [
    "field_clone_refuted",
    "field_positions",
    "field_clone_keeps"
   ],
   "note": "FINDING, refuted as stated: clone() drops the previous coordinate system, and replaces the reference point by the first border point (the default point for an empty field); absolute positions, id and coordinate system are kept up to twice the error of the text round trip"
  },
  {
   "property": "C71",
   "status": "proved",
   "theorems": [
    "epsg_round_trip",
    "to_string_decimal"
   ],
   "note": "every 32-bit code"
  },
  {
   "property": "C72",
   "status": "partial",
   "theorems": [
    "utm_zone_refuted",
    "utm_zone_small",
    "utm_zone"
   ],
   "note": "FINDING, refuted as stated: zones 1 to 9 written without a leading zero keep the hemisphere letter in the zone and lose the hemisphere flag; proved for two-digit zones"
  },
  {
   "property": "C73",
   "status": "partial",
   "theorems": [
    "transform_undo_refuted",
    "transform_undo",
    "to_utm_and_back"
   ],
   "note": "FINDING, refuted as stated: the reference point does not come back when it was not the first border point; positions, id and systems do (C151, C158)"
  },
  {
   "property": "C74",
   "status": "proved",
   "theorems": [
    "gml_text",
    "gml_text_any"
   ],
   "note": "texts as character lists; the loop is modelled with fuel that provably suffices"
  },
  {
   "property": "C75",
   "status": "partial",
   "theorems": [
    "robot_widths",
    "robot_setters",
    "robot_negative_curvature_refuted",
    "robot_nan_refuted"
   ],
   "note": "FINDING: proved for numbers, but a NaN width passes the check, and the constructor (not the setter) accepts negative curvature limits"
  },
  {
   "property": "C76",
   "status": "proved",
   "theorems": [
    "signed_cost_exact",
    "signed_cost_order",
    "signed_cost_optimum"
   ],
   "note": "exact arithmetic"
  },
  {
   "property": "C77",
   "status": "partial",
   "theorems": [
    "rand_cell_area_refuted",
    "rand_cell_area",
    "rand_cell_refuses"
   ],
   "note": "FINDING, refuted as stated: scaling skips vertices that would move by less than 1e-7, so the area may differ; proved exact when no vertex is that close, and with an error bound in general. Area of the library = shoelace formula (trusted)."
  },
  {
   "property": "C78",
   "status": "partial",
   "theorems": [
    "split_growth_refuted",
    "split_sequence"
   ],
   "note": "FINDING, refuted as stated: the growth is assigned to a loop variable that never writes back; the sequence part is proved"
  },
  {
   "property": "C79",
   "status": "proved",
   "theorems": [
    "line_until_border",
    "cell_at_point",
    "search_limit"
   ],
   "note": "exact arithmetic; intersection, touches and within (GEOS) are oracles; crossings nearer than the largest double"
  },
  {
   "property": "C80",
   "status": "proved",
   "theorems": [
    "ordering_succeeds_iff",
    "ordering_outcomes",
    "custom_order_exact",
    "snake_safe_refuted",
    "spiral_size_safe_refuted"
   ],
   "note": ""
  },
  {
   "property": "C81",
   "status": "proved",
   "theorems": [
    "geometric_alternation_consistent"
   ],
   "note": "hypothesis: the text round trip of clone() keeps the coordinates of the given swaths"
  },
  {
   "property": "C82",
   "status": "proved",
   "theorems": [
    "variant_mod_4",
    "variant_bit1_reverses",
    "order_pos_first",
    "variant_bit1_custom_no_effect",
    "ordering_positions"
   ],
   "note": ""
  },
  {
   "property": "C83",
   "status": "proved",
   "theorems": [
    "clone_exact"
   ],
   "note": ""
  },
  {
   "property": "C84",
   "status": "proved",
   "theorems": [
    "swath_cmp_same_direction",
    "swath_eq_own_reverse"
   ],
   "note": "for any double comparison that is symmetric; own reverse needs no NaN and equal lengths of the line and its reverse"
  },
  {
   "property": "C85",
   "status": "proved",
   "theorems": [
    "spiral_size_safe"
   ],
   "note": ""
  },
  {
   "property": "C86",
   "status": "proved",
   "theorems": [
    "path_query_safe_iff",
    "all_simple_paths"
   ],
   "note": ""
  },
  {
   "property": "C87",
   "status": "proved",
   "theorems": [
    "point_shortest_path"
   ],
   "note": "a one-way edge into a sink makes the queries undefined: point_query_safe_refuted"
  },
  {
   "property": "C88",
   "status": "proved",
   "theorems": [
    "grid_points_equal"
   ],
   "note": "exact arithmetic"
  },
  {
   "property": "C89",
   "status": "proved",
   "theorems": [
    "route_clone_exact"
   ],
   "note": ""
  },
  {
   "property": "C90",
   "status": "proved",
   "theorems": [
    "shortest_graph_connects"
   ],
   "note": "key comparison an equivalence that the nearness test respects (see C22)"
  },
  {
   "property": "C91",
   "status": "proved",
   "theorems": [
    "genRoute_complete",
    "coverage_route_complete",
    "shortest_graph_connects"
   ],
   "note": "the solver is an oracle: any round tour along existing arcs; a tour is proved to exist; distances bounded so that no route reaches the planner's infinity"
  },
  {
   "property": "C92",
   "status": "proved",
   "theorems": [
    "point_angle_defined",
    "point_angle_half_way",
    "angle_errors"
   ],
   "note": ""
  },
  {
   "property": "C93",
   "status": "proved",
   "theorems": [
    "angle_continuity",
    "angle_continuity_vector"
   ],
   "note": ""
  },
  {
   "property": "C94",
   "status": "proved",
   "theorems": [
    "closest_on_line",
    "closest_on_border",
    "closest_on_borders",
    "closest_in_segment"
   ],
   "note": ""
  },
  {
   "property": "C95",
   "status": "proved",
   "theorems": [
    "route_cost_deficit"
   ],
   "note": ""
  },
  {
   "property": "C96",
   "status": "proved",
   "theorems": [
    "overlap_cost_exact",
    "overlap_cost_bound"
   ],
   "note": "areas and intersections are oracles (GDAL)"
  },
  {
   "property": "C97",
   "status": "proved",
   "theorems": [
    "nsm_cost_exact",
    "nsm_cost_good_sizes"
   ],
   "note": "exact arithmetic"
  },
  {
   "property": "C98",
   "status": "proved",
   "theorems": [
    "field_objectives_defined"
   ],
   "note": ""
  },
  {
   "property": "C99",
   "status": "proved",
   "theorems": [
    "headland_cost_share"
   ],
   "note": ""
  },
  {
   "property": "C100",
   "status": "partial",
   "theorems": [
    "clipped_lines_cover_refuted",
    "covered_up_to_half_a_width"
   ],
   "note": "FINDING, refuted as stated: with height 1.4 widths the strip above 1 width is not covered by a line that meets the field; proved: everything more than half a width below the upper border is covered"
  },
  {
   "property": "C101",
   "status": "proved",
   "theorems": [
    "generated_swaths",
    "generated_swaths_of_cells"
   ],
   "note": "clipping (GDAL) is an oracle"
  },
  {
   "property": "C102",
   "status": "proved",
   "theorems": [
    "atan2_principal",
    "turn_angle"
   ],
   "note": "exact arithmetic"
  },
  {
   "property": "C103",
   "status": "proved",
   "theorems": [
    "swath_end_angles"
   ],
   "note": ""
  },
  {
   "property": "C104",
   "status": "proved",
   "theorems": [
    "line_count",
    "nonpositive_width_hangs"
   ],
   "note": "exact arithmetic"
  },
  {
   "property": "C105",
   "status": "proved",
   "theorems": [
    "brute_force_safe_iff",
    "brute_force_outcomes"
   ],
   "note": "exact arithmetic"
  },
  {
   "property": "C106",
   "status": "proved",
   "theorems": [
    "headland_pick_iff"
   ],
   "note": "buffer (GDAL) is an oracle"
  },
  {
   "property": "C107",
   "status": "proved",
   "theorems": [
    "overlap_adds_only_outside"
   ],
   "note": "exact arithmetic"
  },
  {
   "property": "C108",
   "status": "proved",
   "theorems": [
    "headland_rings_out2in",
    "headland_rings_in2out"
   ],
   "note": "buffer (GDAL) is an oracle"
  },
  {
   "property": "C109",
   "status": "partial",
   "theorems": [
    "spline_unsorted_refuted",
    "spline_errors"
   ],
   "note": "FINDING, refuted as stated: the order of the first two knots is not checked; see C110"
  },
  {
   "property": "C110",
   "status": "proved",
   "theorems": [
    "spline_errors"
   ],
   "note": "exact arithmetic"
  },
  {
   "property": "C111",
   "status": "partial",
   "theorems": [
    "self_append_refuted",
    "path_additive"
   ],
   "note": "FINDING, refuted as stated: undefined for every non-empty path appended to itself; for other paths see C42"
  },
  {
   "property": "C112",
   "status": "proved",
   "theorems": [
    "path_motions",
    "path_motions_keep",
    "path_heights"
   ],
   "note": "exact arithmetic"
  },
  {
   "property": "C113",
   "status": "proved",
   "theorems": [
    "path_setters",
    "path_setters_outside",
    "path_states_by_index"
   ],
   "note": "any number type"
  },
  {
   "property": "C114",
   "status": "proved",
   "theorems": [
    "path_dims"
   ],
   "note": "exact arithmetic"
  },
  {
   "property": "C115",
   "status": "proved",
   "theorems": [
    "append_swath"
   ],
   "note": "exact arithmetic"
  },
  {
   "property": "C116",
   "status": "proved",
   "theorems": [
    "path_to_line"
   ],
   "note": "exact arithmetic"
  },
  {
   "property": "C117",
   "status": "proved",
   "theorems": [
    "populate_other"
   ],
   "note": "exact arithmetic"
  },
  {
   "property": "C118",
   "status": "partial",
   "theorems": [
    "populate_negative_refuted",
    "populate_negative"
   ],
   "note": "FINDING, refuted as stated: a negative count is converted to a huge unsigned bound and reads out of bounds"
  },
  {
   "property": "C119",
   "status": "proved",
   "theorems": [
    "discretize_keeps_length",
    "discretize_short"
   ],
   "note": "exact arithmetic; angles of moderate size"
  },
  {
   "property": "C120",
   "status": "proved",
   "theorems": [
    "swath_constructors"
   ],
   "note": "width test and number type abstract"
  },
  {
   "property": "C121",
   "status": "proved",
   "theorems": [
    "create_turn",
    "create_turn_defined"
   ],
   "note": "exact arithmetic; generator is an oracle"
  },
  {
   "property": "C122",
   "status": "proved",
   "theorems": [
    "turn_connects"
   ],
   "note": "exact arithmetic; generator is an oracle"
  },
  {
   "property": "C123",
   "status": "partial",
   "theorems": [
    "cached_turn_zero_radius_refuted",
    "create_turn_defined"
   ],
   "note": "FINDING, refuted as stated: for every robot after setMinTurningRadius(0) the key conversion overflows int; proved defined below 2147483"
  },
  {
   "property": "C124",
   "status": "proved",
   "theorems": [
    "turn_valid"
   ],
   "note": "exact arithmetic; the end point is where the last state leads, its own point for a last state of length 0"
  },
  {
   "property": "C125",
   "status": "partial",
   "theorems": [
    "steer_direction_refuted",
    "steer_to_path"
   ],
   "note": "FINDING, refuted as stated: direction 0 of the steering library is stored as it is"
  },
  {
   "property": "C126",
   "status": "proved",
   "theorems": [
    "loop_meaning"
   ],
   "note": "exact arithmetic"
  },
  {
   "property": "C127",
   "status": "proved",
   "theorems": [
    "robot_setters",
    "robot_new"
   ],
   "note": ""
  },
  {
   "property": "C128",
   "status": "proved",
   "theorems": [
    "robot_radius",
    "robot_radius_refuted"
   ],
   "note": "exact arithmetic; robot_radius_refuted: a radius of 1e7 comes back halved"
  },
  {
   "property": "C129",
   "status": "partial",
   "theorems": [
    "robot_default_refuted",
    "robot_set_width_refuted"
   ],
   "note": "FINDING, refuted as stated: default construction gives widths 0, setters check nothing"
  },
  {
   "property": "C130",
   "status": "proved",
   "theorems": [
    "plan_defined"
   ],
   "note": "turn oracle total, with an invariant of the planner, between places of a convex set; shown met by a new planner with cache within 100 km of the origin"
  },
  {
   "property": "C131",
   "status": "proved",
   "theorems": [
    "exit_pose_near",
    "simplified_connection"
   ],
   "note": "FINDING: the exit-pose branch of simplifyConnection (path_planning.cpp 148-154) is dead code"
  },
  {
   "property": "C132",
   "status": "partial",
   "theorems": [
    "slight_bend_refuted",
    "simplified_connection"
   ],
   "note": "FINDING, refuted as stated: headings 0.01 and 2 pi - 0.01 count as a bend; simplified_connection has the exact (unwrapped) test"
  },
  {
   "property": "C133",
   "status": "partial",
   "theorems": [
    "plan_single_point_refuted",
    "plan_defined"
   ],
   "note": "FINDING, refuted as stated: a first or last connection of one point throws invalid_argument"
  },
  {
   "property": "C134",
   "status": "proved",
   "theorems": [
    "moveTo_exact",
    "moveTo_ignored",
    "moveTo_all",
    "scale_line",
    "scale_points",
    "scale_cells",
    "scale_mline"
   ],
   "note": "exact arithmetic"
  },
  {
   "property": "C135",
   "status": "proved",
   "theorems": [
    "setGeometry_mline",
    "setGeometry_cells",
    "closeRing_spec",
    "setGeometry_cell",
    "setGeometry_line",
    "setGeometry_mpoint"
   ],
   "note": ""
  },
  {
   "property": "C136",
   "status": "proved",
   "theorems": [
    "cells_moved",
    "cells_moved_refuted"
   ],
   "note": "exact arithmetic; text format keeps coordinates; cells_moved_refuted shows the condition on empty parts is needed"
  },
  {
   "property": "C137",
   "status": "proved",
   "theorems": [
    "convex_test",
    "convex_accepts",
    "convex_with_start",
    "convex_refuses"
   ],
   "note": "exact arithmetic; area is an oracle"
  },
  {
   "property": "C138",
   "status": "proved",
   "theorems": [
    "ray_reaches",
    "ray_reaches_refuted"
   ],
   "note": "exact arithmetic; ray_reaches_refuted: not from outside the box"
  },
  {
   "property": "C139",
   "status": "proved",
   "theorems": [
    "cell_at_point"
   ],
   "note": "touches and within are oracles"
  },
  {
   "property": "C140",
   "status": "proved",
   "theorems": [
    "epsg_reads"
   ],
   "note": ""
  },
  {
   "property": "C141",
   "status": "partial",
   "theorems": [
    "epsg_anywhere_refuted",
    "epsg_reads",
    "epsg_without_number",
    "epsg_bad_start"
   ],
   "note": "FINDING, refuted as stated: the number is always read from the sixth character on; proved when EPSG: starts the text (C140)"
  },
  {
   "property": "C142",
   "status": "proved",
   "theorems": [
    "utm_code"
   ],
   "note": "the regular expressions are modelled by a backtracking matcher with ECMAScript priorities"
  },
  {
   "property": "C143",
   "status": "proved",
   "theorems": [
    "utm_zone",
    "utm_defined"
   ],
   "note": ""
  },
  {
   "property": "C144",
   "status": "proved",
   "theorems": [
    "utm_set_get"
   ],
   "note": ""
  },
  {
   "property": "C145",
   "status": "partial",
   "theorems": [
    "utm_unrecognised_refuted",
    "utm_defined"
   ],
   "note": "FINDING, refuted as stated: getUTMHemisphere throws out_of_range on a text with UTM: but no code; utm_defined gives the exact condition"
  },
  {
   "property": "C146",
   "status": "proved",
   "theorems": [
    "field_positions",
    "field_clone_keeps"
   ],
   "note": "cells whose polygons have a non-empty exterior ring and closed rings"
  },
  {
   "property": "C147",
   "status": "partial",
   "theorems": [
    "field_first_empty_refuted",
    "field_positions"
   ],
   "note": "FINDING, refuted as stated: cells whose first polygon is empty; proved for cells where every polygon has a border with points"
  },
  {
   "property": "C148",
   "status": "proved",
   "theorems": [
    "spt_meaning"
   ],
   "note": ""
  },
  {
   "property": "C149",
   "status": "partial",
   "theorems": [
    "spt_small_zone_refuted",
    "spt_small_zone",
    "spt_meaning"
   ],
   "note": "FINDING, refuted as stated: for zones 1 to 9 the hemisphere letter ends up in the zone number and the hemisphere flag is lost, so southern fields west of 126 W are placed as if northern; proved for two-digit zones (C148)"
  },
  {
   "property": "C150",
   "status": "partial",
   "theorems": [
    "utm_zone_choice_refuted",
    "utm_zone_choice"
   ],
   "note": "FINDING, refuted at longitude 180, which gets zone 61; proved for longitudes in [-180, 180)"
  },
  {
   "property": "C151",
   "status": "proved",
   "theorems": [
    "transform_moves",
    "transform_undo"
   ],
   "note": "exact arithmetic except the text round trip, whose error is a parameter; the conversion of the CRS library is an oracle that succeeds"
  },
  {
   "property": "C152",
   "status": "partial",
   "theorems": [
    "transform_throw_refuted",
    "transform_throw"
   ],
   "note": "FINDING, refuted as stated: the cells were already moved by the reference point, so the field is displaced"
  },
  {
   "property": "C153",
   "status": "partial",
   "theorems": [
    "transform_swath_refuted",
    "transform_swath",
    "transform_many",
    "transform_plain"
   ],
   "note": "FINDING, refuted as stated: type and direction are lost, and a swath without width is refused; id, width and points proved"
  },
  {
   "property": "C154",
   "status": "proved",
   "theorems": [
    "transform_path",
    "transform_path_empty"
   ],
   "note": "exact arithmetic"
  },
  {
   "property": "C155",
   "status": "partial",
   "theorems": [
    "transform_path_backward_refuted",
    "transform_path"
   ],
   "note": "FINDING, refuted as stated: headings of backward states are set to the direction of travel; proved when all states go forward"
  },
  {
   "property": "C156",
   "status": "partial",
   "theorems": [
    "transform_path_plain_refuted",
    "transform_path_plain"
   ],
   "note": "FINDING, refuted as stated: transformPath leaves lengths and headings as they were; proved for shifts"
  },
  {
   "property": "C157",
   "status": "proved",
   "theorems": [
    "transform_route",
    "transform_many"
   ],
   "note": ""
  },
  {
   "property": "C158",
   "status": "proved",
   "theorems": [
    "to_utm_and_back",
    "to_utm_local"
   ],
   "note": "conversions are oracles that compose; exact text format"
  },
  {
   "property": "C159",
   "status": "proved",
   "theorems": [
    "replace_all",
    "replace_all_total"
   ],
   "note": ""
  },
  {
   "property": "C160",
   "status": "proved",
   "theorems": [
    "gml_import",
    "gml_no_document"
   ],
   "note": "tinyxml2 and the WKT parser are oracles: the theorem takes the parsed tree and the parser's answer"
  },
  {
   "property": "C161",
   "status": "partial",
   "theorems": [
    "gml_shape_refuted"
   ],
   "note": "FINDING, refuted as stated: missing elements, attributes or text and rejected coordinates are used as null pointers"
  },
  {
   "property": "C162",
   "status": "partial",
   "theorems": [
    "gml_whitespace_refuted",
    "gml_two_blanks_refuted",
    "gml_text"
   ],
   "note": "FINDING, refuted as stated: a line break joins two positions, two blanks give an empty one; single blanks work (C74)"
  },
  {
   "property": "C163",
   "status": "proved",
   "theorems": [
    "json_cell",
    "json_first_cell"
   ],
   "note": "JSON syntax is nlohmann's; numbers are exact reals; text round trip of clone() is an oracle"
  },
  {
   "property": "C164",
   "status": "partial",
   "theorems": [
    "json_position_refuted",
    "json_cell",
    "json_point_cases"
   ],
   "note": "FINDING, refuted as stated: positions of one, or more than three numbers become (0,0,0) silently; two and three are right (C163)"
  },
  {
   "property": "C165",
   "status": "proved",
   "theorems": [
    "json_fields",
    "json_fields_name"
   ],
   "note": "positions up to twice the text rounding error"
  },
  {
   "property": "C166",
   "status": "partial",
   "theorems": [
    "json_geometry_refuted",
    "json_fields_name",
    "json_cell_defined",
    "json_cell_scalar"
   ],
   "note": "FINDING, refuted as stated: operator[] of a const object with a missing key is undefined behaviour"
  },
  {
   "property": "C167",
   "status": "proved",
   "theorems": [
    "json_swaths",
    "json_swaths_width"
   ],
   "note": "path_id an integer in the range of int"
  },
  {
   "property": "C168",
   "status": "proved",
   "theorems": [
    "json_strips"
   ],
   "note": ""
  },
  {
   "property": "C169",
   "status": "proved",
   "theorems": [
    "save_load_rounded",
    "save_joins"
   ],
   "note": "Bit-level doubles of the standard library; printf %g, num_get and strtod modelled character by character in the classic locale."
  },
  {
   "property": "C170",
   "status": "proved",
   "theorems": [
    "save_load_exact"
   ],
   "note": "All finite doubles, including subnormal ones."
  },
  {
   "property": "C171",
   "status": "proved",
   "theorems": [
    "load_appends"
   ],
   "note": "Loading may still be undefined behaviour when a direction or section number does not fit an int."
  },
  {
   "property": "C172",
   "status": "partial",
   "theorems": [
    "load_nonfinite_refuted",
    "load_stops"
   ],
   "note": "FINDING, refuted as stated: operator<< writes inf/nan and operator>> refuses them, so loading stops without an error."
  },
  {
   "property": "C173",
   "status": "proved",
   "theorems": [
    "load_stops",
    "load_stops_rounded",
    "save_joins"
   ],
   "note": "load_stops for precision 17 and more, load_stops_rounded for every precision."
  },
  {
   "property": "C174",
   "status": "partial",
   "theorems": [
    "default_precision_refuted",
    "save_load_rounded"
   ],
   "note": "FINDING, refuted as stated: the default precision of 6 digits moves a point at northing 5712345 by five metres. The error bound that does hold is that of C169."
  },
  {
   "property": "C175",
   "status": "proved",
   "theorems": [
    "coverage_costs"
   ],
   "note": "Preconditions as in C91; edge costs are integers (the code rounds distances to millimetres)."
  },
  {
   "property": "C176",
   "status": "proved",
   "theorems": [
    "state_end",
    "path_at_empty"
   ],
   "note": "exact arithmetic"
  },
  {
   "property": "C177",
   "status": "proved",
   "theorems": [
    "point_order",
    "point_ne"
   ],
   "note": "exact arithmetic"
  },
  {
   "property": "C178",
   "status": "proved",
   "theorems": [
    "hash_meaning"
   ],
   "note": "bit-level doubles; the key is a float computation as written"
  },
  {
   "property": "C179",
   "status": "proved",
   "theorems": [
    "empty_cell_sizes"
   ],
   "note": "exact arithmetic"
  },
  {
   "property": "C180",
   "status": "partial",
   "theorems": [
    "get_geometry_refuted",
    "get_geometry"
   ],
   "note": "FINDING, refuted as stated: a collection whose parts are all empty has size() 0, so its parts cannot be read; proved as soon as one part is not empty"
  },
  {
   "property": "C181",
   "status": "partial",
   "theorems": [
    "to_utm_undefined_refuted",
    "utm_name_defined"
   ],
   "note": "FINDING, refuted as stated: west of -186 degrees a negative double is converted to size_t, which is undefined; exact range proved"
  },
  {
   "property": "C182",
   "status": "proved",
   "theorems": [
    "json_fields_defined",
    "json_fields_none"
   ],
   "note": "parsed documents; the JSON reader itself is outside the model"
  },
  {
   "property": "C183",
   "status": "proved",
   "theorems": [
    "json_swath_number"
   ],
   "note": ""
  },
  {
   "property": "C184",
   "status": "partial",
   "theorems": [
    "transform_unknown_refuted",
    "transform_null",
    "no_previous_system"
   ],
   "note": "FINDING, refuted for the first half: the null transformation is used (undefined behaviour), transform_null; the second half is proved"
  },
  {
   "property": "C185",
   "status": "partial",
   "theorems": [
    "rand_cell_degenerate_refuted",
    "rand_cell_proper"
   ],
   "note": "FINDING, refuted for n = 3 (three points on a line; division by zero); proved for n >= 4, without rounding in the text round trip"
  },
  {
   "property": "C186",
   "status": "proved",
   "theorems": [
    "gen_convex",
    "gen_convex_large",
    "rand_field"
   ],
   "note": "termination of the loops is not claimed: it depends on the draws"
  },
  {
   "property": "C187",
   "status": "proved",
   "theorems": [
    "random_ranges",
    "random_empty_range"
   ],
   "note": "exact arithmetic; distributions as in libstdc++"
  },
  {
   "property": "C188",
   "status": "partial",
   "theorems": [
    "exp_positive_refuted",
    "random_ranges"
   ],
   "note": "FINDING, refuted: a draw of 0 gives 0; not negative is proved (C187)"
  },
  {
   "property": "C189",
   "status": "proved",
   "theorems": [
    "values_when_unshared",
    "values_without_copies"
   ],
   "note": "std::sort taken to depend on the ids only; effect of moveTo on the points of a line is a parameter"
  },
  {
   "property": "C190",
   "status": "proved",
   "theorems": [
    "groups_stay_apart",
    "clone_apart",
    "cells_clone"
   ],
   "note": ""
  },
  {
   "property": "C191",
   "status": "proved",
   "theorems": [
    "reverse_shared",
    "move_shared"
   ],
   "note": ""
  },
  {
   "property": "C192",
   "status": "proved",
   "theorems": [
    "ordering_leaves_input"
   ],
   "note": "std::sort taken to depend on the ids only"
  },
  {
   "property": "C193",
   "status": "proved",
   "theorems": [
    "plan_route_complete"
   ],
   "note": "exact arithmetic; geometry library and solver as parameters; the conditions under which swaths can be routed are those of C36 (different ends, joined along the rings, near enough for the planner's infinity)"
  },
  {
   "property": "C194",
   "status": "proved",
   "theorems": [
    "plan_route_covers"
   ],
   "note": "exact arithmetic, exact text format, clipping faithful to the cell"
  },
  {
   "property": "C195",
   "status": "partial",
   "theorems": [
    "plan_always_routes_refuted",
    "plan_no_tracks",
    "plan_no_width",
    "plan_small_field",
    "plan_no_swaths",
    "plan_touching_line_refuted"
   ],
   "note": "FINDING, refuted as stated: no headland tracks with a constant headland is an out-of-range access; a robot without coverage width (the default one) never returns; a field smaller than its headland is undefined behaviour. True conditions: C193"
  },
  {
   "property": "C196",
   "status": "proved",
   "theorems": [
    "plan_local_field",
    "plan_moved_field",
    "plan_origin_field"
   ],
   "note": "exact arithmetic, exact text format"
  },
  {
   "property": "C197",
   "status": "proved",
   "theorems": [
    "plan_global_field"
   ],
   "note": "exact arithmetic, exact text format, composing conversions; longitude in [-180, 180)"
  },
  {
   "property": "C198",
   "status": "proved",
   "theorems": [
    "plan_options",
    "plan_path_options"
   ],
   "note": ""
  },
  {
   "property": "C199",
   "status": "proved",
   "theorems": [
    "plan_path_drives",
    "plan_path_complete"
   ],
   "note": "exact arithmetic, exact text format"
  },
  {
   "property": "C200",
   "status": "proved",
   "theorems": [
    "trapezoid_lines",
    "split_angle_kept"
   ],
   "note": "crossings as reported by the geometry library, distances below the largest double"
  },
  {
   "property": "C201",
   "status": "partial",
   "theorems": [
    "trapezoid_own_cell_refuted",
    "trapezoid_own_cell"
   ],
   "note": "FINDING, refuted as stated: the lines are those of the first cell at the vertex, so a vertex shared with an earlier cell loses the line into its own. True when the vertex is at one cell only"
  },
  {
   "property": "C202",
   "status": "proved",
   "theorems": [
    "boustrophedon_lines",
    "edge_test"
   ],
   "note": "exact arithmetic; crossings within 60 degrees of the direction of the ray"
  },
  {
   "property": "C203",
   "status": "partial",
   "theorems": [
    "decompose_same_space_refuted"
   ],
   "note": "FINDING, refuted as stated: the strips round the split lines are lost, because the growth of the parts has no effect. What is returned: C204"
  },
  {
   "property": "C204",
   "status": "proved",
   "theorems": [
    "decompose_space",
    "decomp_cost_blind"
   ],
   "note": "difference of cells = difference of point sets"
  },
  {
   "property": "C205",
   "status": "proved",
   "theorems": [
    "linspace_even",
    "colors_even",
    "default_colors"
   ],
   "note": "exact arithmetic; matplot itself is outside the model: the drawing calls are recorded as a list"
  },
  {
   "property": "C206",
   "status": "partial",
   "theorems": [
    "single_swath_color_refuted",
    "colors_even"
   ],
   "note": "FINDING, refuted as stated: the spacing for one colour is 0/0, so a single swath (or a path of a single section) is drawn with colour components NaN; valid for two or more (C205)"
  },
  {
   "property": "C207",
   "status": "proved",
   "theorems": [
    "swaths_drawn",
    "sbc_drawn",
    "route_drawn",
    "routes_drawn"
   ],
   "note": "below 2^31 swaths for swaths by cells, as for sizeTotal"
  },
  {
   "property": "C208",
   "status": "partial",
   "theorems": [
    "groups_colors_refuted",
    "groups_ignore_colors",
    "groups_drawn"
   ],
   "note": "FINDING, refuted as stated: the colours given are ignored; proved which colours are used"
  },
  {
   "property": "C209",
   "status": "proved",
   "theorems": [
    "path_drawn"
   ],
   "note": ""
  },
  {
   "property": "C210",
   "status": "partial",
   "theorems": [
    "path_curves_refuted",
    "path_drawn"
   ],
   "note": "FINDING, refuted as stated: the first state of another kind is put into the previous curve, and a curve without points is drawn when a section of one state ends the path; what is drawn is proved (C209)"
  },
  {
   "property": "C211",
   "status": "partial",
   "theorems": [
    "point_alpha_refuted",
    "point_drawn",
    "points_drawn"
   ],
   "note": "FINDING, refuted as stated: a fourth component is written past the end of an array of three (undefined behaviour); exact behaviour proved"
  },
  {
   "property": "C212",
   "status": "proved",
   "theorems": [
    "cells_drawn",
    "vectors_drawn"
   ],
   "note": ""
  },
  {
   "property": "C213",
   "status": "proved",
   "theorems": [
    "cells_filled"
   ],
   "note": ""
  },
  {
   "property": "C214",
   "status": "partial",
   "theorems": [
    "field_filled_refuted",
    "cell_filled_refuted",
    "filled_outlines"
   ],
   "note": "FINDING, refuted as stated: plotFilled of a field only draws the outlines; plotFilled of a cell in one colour paints over its holes, unlike that of cells, and is undefined behaviour for a cell without rings"
  },
  {
   "property": "C215",
   "status": "partial",
   "theorems": [
    "append_collection_refuted",
    "append_curves"
   ],
   "note": "FINDING, refuted as stated: a collection, as GDAL returns for lines and points together, is ignored altogether; otherwise true (C216)"
  },
  {
   "property": "C216",
   "status": "proved",
   "theorems": [
    "append_curves"
   ],
   "note": ""
  },
  {
   "property": "C217",
   "status": "partial",
   "theorems": [
    "swaths_lost_refuted",
    "lines_inside"
   ],
   "note": "FINDING, refuted as stated: all lines are cut with the cell in one call, so if one of them only touches a corner the result is a collection and all swaths of the cell are lost, silently; true when the result is not mixed (C218)"
  },
  {
   "property": "C218",
   "status": "proved",
   "theorems": [
    "lines_inside",
    "lines_clipped",
    "null_geometry"
   ],
   "note": "GEOS is an oracle: exact result assumed where stated; a null result is undefined behaviour"
  },
  {
   "property": "C219",
   "status": "partial",
   "theorems": [
    "line_until_border_lost_refuted"
   ],
   "note": "FINDING, refuted as stated: the line is empty if the ray touches the cell again further on (C215). What is returned for given pieces: C79"
  },
  {
   "property": "C220",
   "status": "partial",
   "theorems": [
    "cells_of_collection_refuted",
    "cells_of_geometry"
   ],
   "note": "FINDING, refuted as stated: polygons that are not direct members of a collection are ignored; otherwise true (C221)"
  },
  {
   "property": "C221",
   "status": "proved",
   "theorems": [
    "cells_of_geometry",
    "cell_of_geometry",
    "null_geometry"
   ],
   "note": ""
  },
  {
   "property": "C222",
   "status": "proved",
   "theorems": [
    "ring_band",
    "ring_band_empty"
   ],
   "note": "buffer and difference are oracles"
  },
  {
   "property": "C223",
   "status": "proved",
   "theorems": [
    "line_segments"
   ],
   "note": "fewer than 2^64 points"
  },
  {
   "property": "C224",
   "status": "partial",
   "theorems": [
    "no_segments_refuted",
    "line_segments"
   ],
   "note": "FINDING, refuted as stated: size() - 1 wraps round and the first point is asked for, which throws out_of_range"
  },
  {
   "property": "C225",
   "status": "proved",
   "theorems": [
    "part_at",
    "end_angles"
   ],
   "note": "up to 2^31 parts"
  },
  {
   "property": "C226",
   "status": "proved",
   "theorems": [
    "ring_added",
    "rings_of_cells",
    "lines_added",
    "field_border_read"
   ],
   "note": ""
  },
  {
   "property": "C227",
   "status": "partial",
   "theorems": [
    "ring_added_open_refuted",
    "ring_added"
   ],
   "note": "FINDING, refuted as stated: the ring is left open"
  },
  {
   "property": "C228",
   "status": "proved",
   "theorems": [
    "cells_common",
    "closed_area"
   ],
   "note": "GEOS is an oracle: exact wherever it answers"
  },
  {
   "property": "C229",
   "status": "proved",
   "theorems": [
    "cells_rest",
    "cells_parted"
   ],
   "note": "GEOS is an oracle: exact wherever it answers"
  },
  {
   "property": "C230",
   "status": "proved",
   "theorems": [
    "cells_all"
   ],
   "note": "GEOS is an oracle: exact wherever it answers"
  },
  {
   "property": "C231",
   "status": "proved",
   "theorems": [
    "lines_in_cells"
   ],
   "note": "GEOS is an oracle: exact wherever it answers"
  },
  {
   "property": "C232",
   "status": "proved",
   "theorems": [
    "grown",
    "hull_of_cells"
   ],
   "note": "buffer and hull are oracles"
  },
  {
   "property": "C233",
   "status": "partial",
   "theorems": [
    "set_op_reported_refuted",
    "set_op_failed"
   ],
   "note": "FINDING, refuted as stated: the null pointer GDAL returns for invalid polygons is dereferenced, so cells that cross themselves make every set operation undefined behaviour instead of an exception"
  },
  {
   "property": "C234",
   "status": "partial",
   "theorems": [
    "intersection_utm_refuted",
    "intersection_float"
   ],
   "note": "FINDING, refuted as stated: determinants of absolute coordinates cancel; 0.2 mm off for the diagonals of a square metre in UTM coordinates, while operator== tells points 1e-7 apart. What holds: the error is at most 2^-53 (64 L M^2 + 32 |Q| L^2) / delta for coordinates up to M, segments up to L and a determinant of at least delta (intersection_float). In exact arithmetic: C65"
  },
  {
   "property": "C235",
   "status": "partial",
   "theorems": [
    "directions_lost_refuted",
    "default_directions",
    "parts_count_float"
   ],
   "note": "FINDING, refuted as stated: the quotient may round to just below n and is cut off (n = 25, 41, 50, 63, 100, ...), so one direction is not tried; the default step does give 360, and never is more than the last direction missed (parts_count_float, n up to 10^9)"
  },
  {
   "property": "C236",
   "status": "proved",
   "theorems": [
    "planned_turn"
   ],
   "note": "the steering_functions library is an oracle: what is assumed of the curve it returns for the request is `sampled` in Curves_Spec; cache empty or off"
  },
  {
   "property": "C237",
   "status": "partial",
   "theorems": [
    "turn_contiguous_refuted",
    "planned_turn"
   ],
   "note": "FINDING, refuted as stated: length and direction of the chord are mixed with the heading of the tangent, so on a curve a state leads off it; the gap is at most curvature times discretization squared (C236)"
  },
  {
   "property": "C238",
   "status": "proved",
   "theorems": [
    "constrained_turn"
   ],
   "note": "as C236; the heights of the points are dropped"
  },
  {
   "property": "C239",
   "status": "proved",
   "theorems": [
    "first_without_loop",
    "constrained_without_loop"
   ],
   "note": "controls and curves come from an oracle"
  },
  {
   "property": "C240",
   "status": "proved",
   "theorems": [
    "plan_path_states"
   ],
   "note": "the curves come from an oracle that drives forward (Dubins) or either way (Reeds-Shepp); real arithmetic"
  },
  {
   "property": "C241",
   "status": "proved",
   "theorems": [
    "connections_shortest"
   ],
   "note": ""
  },
  {
   "property": "C242",
   "status": "proved",
   "theorems": [
    "point_all_paths"
   ],
   "note": ""
  },
  {
   "property": "C243",
   "status": "proved",
   "theorems": [
    "signed_distance"
   ],
   "note": "exact arithmetic"
  },
  {
   "property": "C244",
   "status": "partial",
   "theorems": [
    "signed_distance_refuted",
    "signed_distance"
   ],
   "note": "FINDING, refuted as stated: the area is taken in the plane but divided by the length in space, so for different heights the result is smaller than both distances. True for equal heights, see signed_distance."
  },
  {
   "property": "C245",
   "status": "partial",
   "theorems": [
    "strip_back_refuted",
    "strip_back",
    "prev_crs_objects"
   ],
   "note": "FINDING, refuted as stated: the overloads for strips do not add the reference point of the field. True for a reference point at the origin (strip_back); prev_crs_objects says exactly what each overload does."
  },
  {
   "property": "C246",
   "status": "proved",
   "theorems": [
    "turn_without_cache"
   ],
   "note": "the generator is any function of robot, discretization, distance and angles"
  },
  {
   "property": "C247",
   "status": "proved",
   "theorems": [
    "pose_costs",
    "connection_costs"
   ],
   "note": "any number type, any cost function"
  },
  {
   "property": "C248",
   "status": "proved",
   "theorems": [
    "cell_objectives"
   ],
   "note": "exact arithmetic"
  },
  {
   "property": "C249",
   "status": "proved",
   "theorems": [
    "mline_image_exact"
   ],
   "note": "any number type"
  },
  {
   "property": "C250",
   "status": "proved",
   "theorems": [
    "plan_overloads"
   ],
   "note": ""
  },
  {
   "property": "C251",
   "status": "proved",
   "theorems": [
    "plan_path_defined",
    "plan_field_path_defined"
   ],
   "note": ""
  },
  {
   "property": "C252",
   "status": "partial",
   "theorems": [
    "swap_refuted",
    "swap_undefined",
    "reverse_undefined",
    "moved_point"
   ],
   "note": "FINDING, refuted as stated: the move constructor of Point leaves a null pointer, and both assignments write through it, so std::swap and std::reverse are undefined for all points, states and fields. Exchanging by copies works, see C253."
  },
  {
   "property": "C253",
   "status": "proved",
   "theorems": [
    "swaths_exchanged",
    "points_exchanged",
    "points_copied"
   ],
   "note": "any number type"
  },
  {
   "property": "C254",
   "status": "proved",
   "theorems": [
    "swath_targeted"
   ],
   "note": "any point and number type"
  },
  {
   "property": "C255",
   "status": "proved",
   "theorems": [
    "points_accessed",
    "objects_moved",
    "moved_point"
   ],
   "note": "any number type; what moving leaves in a std::string is left open"
  },
  {
   "property": "C256",
   "status": "proved",
   "theorems": [
    "cheapest_tour_cheapest_route"
   ],
   "note": "the solver (OR-tools) is assumed to return a cheapest tour here; it is a heuristic"
  },
  {
   "property": "C257",
   "status": "proved",
   "theorems": [
    "cheapest_tour_shortest_route"
   ],
   "note": "distances are real numbers here; the solver is assumed to return a cheapest tour"
  },
  {
   "property": "C258",
   "status": "proved",
   "theorems": [
    "turn_cost",
    "turn_cost_moved",
    "turn_planner_set"
   ],
   "note": "the generator of turns is any function; exact real arithmetic"
  },
  {
   "property": "C259",
   "status": "proved",
   "theorems": [
    "turn_cost_near"
   ],
   "note": "exact real arithmetic"
  },
  {
   "property": "C260",
   "status": "proved",
   "theorems": [
    "turn_route_cost"
   ],
   "note": "exact real arithmetic"
  },
  {
   "property": "C261",
   "status": "partial",
   "theorems": [
    "turn_cost_robot_refuted",
    "cached_answer"
   ],
   "note": "FINDING, refuted as stated: turns are stored under their curvature in thousandths, so after a robot with radius 51 m one with 52 m gets the stored turn, too tight and 3 m too short; stored turns are those of a robot whose curvature differs by less than a thousandth (cached_answer)"
  },
  {
   "property": "C262",
   "status": "proved",
   "theorems": [
    "route_total_length"
   ],
   "note": "the distance is a parameter; where a bound needs it, it is assumed non-negative and to satisfy the triangle inequality"
  },
  {
   "property": "C263",
   "status": "proved",
   "theorems": [
    "headland_objective"
   ],
   "note": "GDAL's difference and area are parameters; assumed: areas are not negative and the area of the difference and of the common part add up"
  },
  {
   "property": "C264",
   "status": "partial",
   "theorems": [
    "headland_no_area_refuted",
    "headland_objective"
   ],
   "note": "FINDING, refuted as stated: for a field without area (an empty F2CCells) the cost is 0/0, not a number; for every other field it holds (headland_objective)"
  },
  {
   "property": "C265",
   "status": "proved",
   "theorems": [
    "parts_by_value_safe"
   ],
   "note": ""
  },
  {
   "property": "C266",
   "status": "proved",
   "theorems": [
    "part_lifetime",
    "part_view",
    "part_handle"
   ],
   "note": "one level of parts: rings inside a cell that is itself a part of a Cells are not followed"
  },
  {
   "property": "C267",
   "status": "partial",
   "theorems": [
    "part_outlives_refuted",
    "where_part_lifetime"
   ],
   "note": "FINDING, refuted as stated: getCellWherePoint returns a Cell that points into the Cells with an empty destructor, so it dangles once the Cells is gone or gets another part by setGeometry; the exact lifetime is where_part_lifetime"
  },
  {
   "property": "C268",
   "status": "proved",
   "theorems": [
    "part_value_kept"
   ],
   "note": ""
  },
  {
   "property": "C269",
   "status": "proved",
   "theorems": [
    "collections_as_values"
   ],
   "note": ""
  },
  {
   "property": "C270",
   "status": "partial",
   "theorems": [
    "collection_copy_refuted",
    "collection_copies"
   ],
   "note": "FINDING, refuted as stated: copies share the OGR object, so addGeometry on one adds to the other, while setGeometry at an index in use changes one only; what each call does to a copy is collection_copies"
  },
  {
   "property": "C271",
   "status": "proved",
   "theorems": [
    "best_swaths",
    "best_swaths_fast",
    "best_swaths_of_cells",
    "generator_settings"
   ],
   "note": "exact arithmetic; clipping and costs are parameters; enough turns of the line loop (they are finite in number for a width above 0)"
  },
  {
   "property": "C272",
   "status": "proved",
   "theorems": [
    "field_setters",
    "setters_and_positions"
   ],
   "note": "positions up to the text round trip"
  },
  {
   "property": "C273",
   "status": "partial",
   "theorems": [
    "shortest_in_metres_refuted",
    "shortest_in_metres"
   ],
   "note": "FINDING, refuted as stated: costs are cut to whole millimetres, so two edges of 0.9 mm cost less than one of 1.44 mm. Proved: the path returned is the shortest up to a millimetre for each of its edges, and twice the distance up to which points are taken to be the same for each edge; two-way graphs, no removal after a query, every distance below INF"
  },
  {
   "property": "C274",
   "status": "partial",
   "theorems": [
    "gen_convex_refuted",
    "gen_convex",
    "triangle_convex"
   ],
   "note": "FINDING, refuted as stated: the test does not look at the first vertex, so a dart can be returned; and three points on a line become a cell with undefined coordinates, which passes the test. What is returned: gen_convex (C186); true for triangles with an area"
  },
  {
   "property": "C275",
   "status": "proved",
   "theorems": [
    "gen_triangle",
    "triangle_convex"
   ],
   "note": "exact arithmetic; the library's area is that of the shoelace formula"
  },
  {
   "property": "C276",
   "status": "proved",
   "theorems": [
    "inf_bound_sharp"
   ],
   "note": ""
  },
  {
   "property": "C277",
   "status": "proved",
   "theorems": [
    "field_values"
   ],
   "note": "values and exceptions are those of the functions of Field_Model.v and Transform_Model.v, which know nothing of sharing; GDAL transformations are an oracle"
  },
  {
   "property": "C278",
   "status": "proved",
   "theorems": [
    "field_values_careful"
   ],
   "note": ""
  },
  {
   "property": "C279",
   "status": "proved",
   "theorems": [
    "field_edit_exact"
   ],
   "note": ""
  },
  {
   "property": "C280",
   "status": "proved",
   "theorems": [
    "field_made_anew",
    "field_groups",
    "transform_empty_shares"
   ],
   "note": ""
  },
  {
   "property": "C281",
   "status": "partial",
   "theorems": [
    "field_copy_refuted",
    "field_edit_exact",
    "field_values_careful"
   ],
   "note": "FINDING, refuted as stated: the copy points to the same OGR object, so adding a cell through copy.getField() adds it to the original too. Proved: exactly the variables that share see the change, and clone() gives a field of its own (C280)."
  },
  {
   "property": "C282",
   "status": "proved",
   "theorems": [
    "route_values"
   ],
   "note": ""
  },
  {
   "property": "C283",
   "status": "proved",
   "theorems": [
    "route_values_careful"
   ],
   "note": ""
  },
  {
   "property": "C284",
   "status": "proved",
   "theorems": [
    "route_write_exact"
   ],
   "note": ""
  },
  {
   "property": "C285",
   "status": "proved",
   "theorems": [
    "route_clone_alone",
    "route_groups"
   ],
   "note": ""
  },
  {
   "property": "C286",
   "status": "partial",
   "theorems": [
    "route_copy_refuted",
    "route_write_exact",
    "route_values_careful"
   ],
   "note": "FINDING, refuted as stated: the copied route points to the same connections, and addConnection(p) adds to the last one in place, so that r2 = r1; r2.addConnection(p) adds p to r1 too. Proved: exactly the variables that share see the points, and routes that begin a new connection or were cloned are independent (C283, C285)."
  },
  {
   "property": "C287",
   "status": "partial",
   "theorems": [
    "route_own_refuted",
    "route_own_exact",
    "route_values_careful"
   ],
   "note": "FINDING, refuted as stated: if a connection has to be added and the vector of connections is full, the argument is a dangling reference and the loop over it is undefined behaviour; for every growth of the vector there is such a program. Proved: exactly then it is undefined, and otherwise the points are added as from a copy."
  },
  {
   "property": "C288",
   "status": "proved",
   "theorems": [
    "convex_moved"
   ],
   "note": "exact arithmetic; that the area is kept is a hypothesis, which the shoelace formula meets (ring_area_moved)"
  },
  {
   "property": "C289",
   "status": "proved",
   "theorems": [
    "gen_convex_field"
   ],
   "note": "exact arithmetic; the text round trip of clone() is exact; the library's area is that of the shoelace formula; cells scaled by infinity are left out, as in C186"
  },
  {
   "property": "C290",
   "status": "proved",
   "theorems": [
    "ordering_permuted"
   ],
   "note": ""
  },
  {
   "property": "C291",
   "status": "proved",
   "theorems": [
    "ordering_redrawn"
   ],
   "note": "of the two ends exactly one is less than the other, after the text round trip of clone()"
  },
  {
   "property": "C292",
   "status": "proved",
   "theorems": [
    "ordering_forgets"
   ],
   "note": "the text round trip of clone() is idempotent"
  },
  {
   "property": "C293",
   "status": "partial",
   "theorems": [
    "ordering_permuted_refuted",
    "ordering_permuted"
   ],
   "note": "FINDING, refuted as stated: swaths with equal ids are left in an order that depends on the input (with a stable sort; with std::sort it is unspecified). Proved for distinct ids (C290)."
  },
  {
   "property": "C294",
   "status": "proved",
   "theorems": [
    "swath_lines_moved"
   ],
   "note": "exact real arithmetic; heights of the lines are 0"
  },
  {
   "property": "C295",
   "status": "proved",
   "theorems": [
    "swath_lines_zoomed"
   ],
   "note": "exact real arithmetic"
  },
  {
   "property": "C296",
   "status": "proved",
   "theorems": [
    "swath_lines_opposite"
   ],
   "note": "exact real arithmetic"
  },
  {
   "property": "C297",
   "status": "proved",
   "theorems": [
    "swaths_moved"
   ],
   "note": "exact real arithmetic; clipping (GEOS) is any function that commutes with the motion"
  },
  {
   "property": "C298",
   "status": "proved",
   "theorems": [
    "best_swaths_shifted"
   ],
   "note": "exact real arithmetic; clipping and objective are any functions that do not depend on the place"
  },
  {
   "property": "C299",
   "status": "proved",
   "theorems": [
    "best_swaths_turned"
   ],
   "note": "exact real arithmetic; clipping and objective are any functions that do not depend on place and heading"
  },
  {
   "property": "C300",
   "status": "proved",
   "theorems": [
    "estimate_moved"
   ],
   "note": "exact real arithmetic"
  },
  {
   "property": "C301",
   "status": "proved",
   "theorems": [
    "estimate_bounds_lines"
   ],
   "note": "exact real arithmetic; the 64-bit index arithmetic of the sum is modelled"
  },
  {
   "property": "C302",
   "status": "proved",
   "theorems": [
    "estimate_exact"
   ],
   "note": "exact real arithmetic; the sizes are those for which the wrapped index is right or harmless (see C97)"
  },
  {
   "property": "C303",
   "status": "proved",
   "theorems": [
    "estimate_best_half"
   ],
   "note": "exact real arithmetic; the parallel loop is any permutation of the indices"
  },
  {
   "property": "C304",
   "status": "proved",
   "theorems": [
    "rows_cost"
   ],
   "note": "exact real arithmetic; any legal std::sort; the text round trip of clone() keeps the coordinates of the given swaths"
  },
  {
   "property": "C305",
   "status": "proved",
   "theorems": [
    "rows_cost_orders"
   ],
   "note": "exact real arithmetic; n at least 2 for the snake order (C03)"
  },
  {
   "property": "C306",
   "status": "proved",
   "theorems": [
    "boustrophedon_cheapest"
   ],
   "note": "exact real arithmetic"
  },
  {
   "property": "C307",
   "status": "proved",
   "theorems": [
    "rows_cost_spiral"
   ],
   "note": "exact real arithmetic"
  },
  {
   "property": "C308",
   "status": "proved",
   "theorems": [
    "rectangle_driven"
   ],
   "note": "exact real arithmetic; clipping is any function that cuts level lines through the rectangle at its sides"
  },
  {
   "property": "C309",
   "status": "proved",
   "theorems": [
    "rows_cost_turns"
   ],
   "note": "exact real arithmetic; the price of turns is any function for which it depends on the number of rows passed only"
  },
  {
   "property": "C310",
   "status": "partial",
   "theorems": [
    "line_count_float_refuted",
    "line_count_float",
    "line_count_float_exact",
    "line_count"
   ],
   "note": "FINDING, refuted as stated: on height 93 and width 3.1 the loop of swath_generator_base.cpp:51-57 lays 31 lines where 30 reach (the last lies outside the field), on height 4.4 and width 0.2 it lays 22 where the exact values take 23; what holds with doubles, for heights of up to a million widths: the loop ends, the count is right up to a thousandth of a width (so exactly right when the height is not that close to a multiple of the width) and every line is within a thousandth of a width of its place (line_count_float, line_count_float_exact); in exact arithmetic the count is right (line_count)"
  },
  {
   "property": "C311",
   "status": "proved",
   "theorems": [
    "ray_reaches_cells",
    "ray_cells_longer",
    "ray_without_cells"
   ],
   "note": "exact real arithmetic; cells without points are passed over by the envelope"
  },
  {
   "property": "C312",
   "status": "partial",
   "theorems": [
    "best_of_all_parts_refuted",
    "best_of_all_parts",
    "best_angle_float",
    "best_count_float",
    "parts_count_float",
    "angles_tried_float"
   ],
   "note": "FINDING, refuted as stated: brute_force.cpp:28-29 truncates two_pi / step, and for step = two_pi / 25 the quotient is just below 25, so the last of the 25 angles is never tried; true in exact arithmetic (best_of_all_parts), and among the angles tried the first of the best is returned (best_angle_float); the number of angles is right up to rounding (best_count_float), so at most the last of n is missed (parts_count_float), and they rise and stay below the full turn (angles_tried_float)"
  },
  {
   "property": "C313",
   "status": "proved",
   "theorems": [
    "path_length_float"
   ],
   "note": "double precision; the operations of doubles as specified in the standard library"
  },
  {
   "property": "C314",
   "status": "partial",
   "theorems": [
    "utm_zone_float_refuted",
    "utm_zone_float",
    "utm_zone_west_undefined",
    "utm_zone_west_zero"
   ],
   "note": "FINDING, refuted as stated: transformation.cpp:189 adds 180 before dividing, and -2^-60, just west of Greenwich, gets zone 31; up to 10^-12 degrees the zone is right (utm_zone_float); west of the date line it is zone 0 for six degrees and then undefined"
  },
  {
   "property": "C315",
   "status": "proved",
   "theorems": [
    "task_time_float"
   ],
   "note": "binary64; velocities are not zero and no time exceeds 2^998"
  },
  {
   "property": "C316",
   "status": "partial",
   "theorems": [
    "mod_2pi_twice_float_refuted",
    "mod_2pi_twice_float",
    "mod_float"
   ],
   "note": "FINDING, refuted as stated: -3.3 normalised twice is one bit less than normalised once, since the sum with 2 pi of the second call has fewer bits. For angles that are not negative it holds (mod_2pi_twice_float)"
  },
  {
   "property": "C317",
   "status": "proved",
   "theorems": [
    "angle_diff_float"
   ],
   "note": "binary64 with std::fmod computed by integers; angles less than 2^999 apart; the full turn is the double nearest to 2 pi"
  },
  {
   "property": "C318",
   "status": "partial",
   "theorems": [
    "angle_diff_order_float_refuted",
    "angle_diff_order_float"
   ],
   "note": "FINDING, refuted as stated: between 0 and -3.92 the difference is one bit smaller one way than the other, since mod rounds b - a + 2 pi only for one sign. What holds: the two differ by rounding only (angle_diff_order_float); in exact arithmetic they are equal (C62)"
  },
  {
   "property": "C319",
   "status": "proved",
   "theorems": [
    "turn_float",
    "step_float"
   ],
   "note": "binary64; sine and cosine come from the C library and are taken to be right to 2^-52; coordinates and distances up to 2^199"
  },
  {
   "property": "C320",
   "status": "proved",
   "theorems": [
    "closest_float",
    "closest_one_point_float"
   ],
   "note": "binary64, no fused operations; the bound is for segments at least 1 long along one axis, within 2^200"
  },
  {
   "property": "C321",
   "status": "proved",
   "theorems": [
    "equal_float",
    "equal_float_margin_needed"
   ],
   "note": "binary64; the second theorem shows that the part of 2^-53 is needed: a difference just below the tolerance can be rounded up to it"
  },
  {
   "property": "C322",
   "status": "partial",
   "theorems": [
    "less_float_refuted",
    "less_float",
    "less_float_any"
   ],
   "note": "FINDING, refuted as stated: a point with NaN as x is equivalent to points that are ordered. Proved: finite points are ordered by x, then y (both zeros equal), hence all four laws there; irreflexive and asymmetric on all doubles. Transitivity on points with NaN or infinite coordinates is not proved."
  }
 ]
}