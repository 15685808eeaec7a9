{"id": "C01", "title": "Swath ordering loses and duplicates nothing", "statement": "For every order strategy (boustrophedon, snake, spiral, custom) a successful genSortedSwaths(swaths, variant) returns exactly the swaths it was given: same number, same multiset of (id, width) and, swath by swath, the same centre line up to traversal direction (coordinates up to the text round trip of clone()).", "quantifier": "for every list of swaths (any length, any ids incl. duplicates, any paths), every variant, every spiral size >= 1, every custom order, every result std::sort may legally return", "why_tests_cant": "tests check a dozen hand-made lists with distinct ids; the permutation claim quantifies over all list lengths, block sizes, duplicates and all legal std::sort outcomes", "anchors": ["src/fields2cover/route_planning/single_cell_swaths_order_base.cpp: genSortedSwaths", "src/fields2cover/route_planning/snake_order.cpp", "src/fields2cover/route_planning/spiral_order.cpp", "src/fields2cover/route_planning/custom_order.cpp", "src/fields2cover/types/Swaths.cpp: sort, clone, reverseDirOddSwaths"]}
{"id": "C02", "title": "Snake order visits evens up, odds down", "statement": "SnakeOrder applied to n >= 2 swaths sorted by id visits positions 0,2,4,... in increasing order and then the odd positions in decreasing order, ending at 1.", "quantifier": "for every n >= 2 and every list of n swaths", "why_tests_cant": "tests look at 4 positions of two sizes; the in-place rotate/reverse algorithm has a different shape for odd and even n and must be right for all n", "anchors": ["src/fields2cover/route_planning/snake_order.cpp: SnakeOrder::sortSwaths"]}
{"id": "C03", "title": "Snake order is safe for every non-empty input", "statement": "genSortedSwaths with SnakeOrder never touches memory outside the swath vector, whatever the number of swaths.", "quantifier": "for every list of swaths", "why_tests_cant": "an out-of-range iterator is undefined behaviour and usually passes a test silently", "anchors": ["src/fields2cover/route_planning/snake_order.cpp: SnakeOrder::sortSwaths"]}
{"id": "C04", "title": "Spiral order has the documented shape", "statement": "SpiralOrder with spiral size s >= 1 cuts the sorted swaths in consecutive blocks of s (plus the remainder); the block that starts at an even offset is visited first, last, second, last but one, ...; a block that starts at an odd offset is visited last, first, last but one, ...; no swath leaves its block.", "quantifier": "for every list of swaths and every spiral size s >= 1", "why_tests_cant": "tests use n=10 with s in {2,5,6,10}; block/remainder/parity combinations are unbounded", "anchors": ["src/fields2cover/route_planning/spiral_order.cpp: SpiralOrder::sortSwaths, spiral"]}
{"id": "C05", "title": "Any spiral size accepted by the API is safe", "statement": "After any sequence of SpiralOrder constructor / setSpiralSize calls, genSortedSwaths is defined behaviour (no division by zero, no out-of-range access).", "quantifier": "for every configured spiral size and list of swaths", "why_tests_cant": "the constructor clamps, the setter does not; a test needs to pick exactly the crashing value", "anchors": ["src/fields2cover/route_planning/spiral_order.cpp: SpiralOrder, setSpiralSize, sortSwaths"]}
{"id": "C06", "title": "Custom order is validated exactly and applied exactly", "statement": "CustomOrder succeeds exactly when the given order is a permutation of 0..n-1, and then position i of the result is swath order[i] of the sorted list; duplicated entries and out-of-range entries raise invalid_argument, a wrong length raises length_error, and an invalid order never reaches an out-of-range access.", "quantifier": "for every order vector and every list of swaths", "why_tests_cant": "the accept/reject boundary is a pigeonhole argument over all vectors", "anchors": ["src/fields2cover/route_planning/custom_order.cpp"]}
{"id": "C07", "title": "Consecutive swaths carry opposite direction flags", "statement": "In every result of genSortedSwaths neighbouring swaths have opposite creation-direction flags, and each swath's centre line was reversed exactly when its flag changed.", "quantifier": "for every list of swaths, order strategy and variant", "why_tests_cant": "invariant over every list length and every pattern of initial flags", "anchors": ["src/fields2cover/types/Swaths.cpp: reverseDirOddSwaths, sort", "src/fields2cover/types/Swath.cpp: reverse, targetOppositeDirAs"]}
{"id": "C08", "title": "Parallel swaths are driven in alternating directions", "statement": "If the input swaths are parallel (each centre line runs between a left and a right end), the result of genSortedSwaths traverses neighbouring swaths in opposite geometric directions.", "quantifier": "for every list of parallel swaths with arbitrary individual drawing directions and every variant", "why_tests_cant": "tests always create all swaths in the same direction, the failing inputs mix directions", "anchors": ["src/fields2cover/route_planning/single_cell_swaths_order_base.cpp", "src/fields2cover/types/Swaths.cpp: sort, reverseDirOddSwaths"]}
{"id": "C09", "title": "The variant argument selects start corner and only that", "statement": "variant bit 0 starts from the last swath, bit 1 starts the first swath of the sorted list in the opposite direction, all other bits are ignored (variant and variant mod 4 give the same result).", "quantifier": "for every variant (32 bit) and list", "why_tests_cant": "2^32 variants times all lists", "anchors": ["src/fields2cover/route_planning/single_cell_swaths_order_base.cpp: genSortedSwaths, changeStartPoint"]}
{"id": "C10", "title": "Cloning a swath preserves all of its observable attributes", "statement": "s.clone() has the same id, width, creation direction, swath type and centre line (up to text round trip) as s, and cloning never fails.", "quantifier": "for every swath that the API can construct", "why_tests_cant": "equality tests on clones compare only some fields; requires every field for every constructible swath", "anchors": ["src/fields2cover/types/Swath.cpp: Swath::clone, Swath::setWidth, constructors"]}
{"id": "C11", "title": "Swath comparison operators are consistent", "statement": "operator== on swaths is symmetric, != is its negation, and <=, >= agree with <, >, ==.", "quantifier": "for all pairs of swaths", "why_tests_cant": "relational laws quantify over all pairs", "anchors": ["src/fields2cover/types/Swath.cpp: operator==, !=, <, >, <=, >="]}
{"id": "C12", "title": "Swath ids produced by append are consecutive", "statement": "Appending lines to a Swaths container gives the new swaths the ids size(), size()+1, ... in order, keeps the old swaths untouched, and stores the given width; non-positive widths are rejected with invalid_argument.", "quantifier": "for every container and every batch of lines", "why_tests_cant": "unbounded sequences", "anchors": ["src/fields2cover/types/Swaths.cpp: append"]}
{"id": "C13", "title": "Copies of a swath are independent of the original", "statement": "Modifying (reversing, moving) a copy of a swath, a Swaths container or the result of flatten() leaves the original unchanged; clone() gives such independence.", "quantifier": "for every history of copy / clone / reverse / move operations on any number of handles", "why_tests_cant": "aliasing bugs depend on the history of handles; tests use single handles", "anchors": ["include/fields2cover/types/Geometry.h: copy constructor", "src/fields2cover/types/Swath.cpp: clone, reverse", "src/fields2cover/types/SwathsByCells.cpp: flatten, clone", "include/fields2cover/types/Geometries_impl.hpp: clone"]}
{"id": "C14", "title": "Global swath index addresses the flattened list", "statement": "SwathsByCells::getSwath(i) is element i of flatten() for every i < sizeTotal() = flatten().size(), and raises out_of_range for every other i; empty cells are skipped.", "quantifier": "for every nesting of swaths by cell and every index", "why_tests_cant": "all shapes including empty inner containers", "anchors": ["src/fields2cover/types/SwathsByCells.cpp: getSwath, sizeTotal, flatten"]}
{"id": "C15", "title": "Shortest path cost is the minimum over all walks", "statement": "With non-negative edge costs below INF and node ids 0..N-1 that all have an outgoing entry, shortestPathCost(i, j, INF) is the minimum total cost over all walks from i to j if that minimum is below INF, INF when no such walk exists, and 0 for i = j; no signed overflow and no out-of-range access happens while computing it.", "quantifier": "for every graph (any number of nodes and edges), all i, j < N, every INF <= 2^62", "why_tests_cant": "optimality quantifies over all walks of all graphs", "anchors": ["src/fields2cover/types/Graph.cpp: shortestPathsAndCosts, initializeMatrices, shortestPathCost"]}
{"id": "C16", "title": "Shortest path is a real path of that cost", "statement": "Under the same conditions shortestPath(i, j) is empty when i = j or when no walk below INF exists; otherwise it starts at i, ends at j, follows existing edges, visits no node twice, and its edge costs add up to shortestPathCost(i, j). Its computation terminates, also with zero-cost cycles.", "quantifier": "for every graph, all i, j < N", "why_tests_cant": "termination of the successor walk with zero-cost cycles depends on the whole Floyd-Warshall history", "anchors": ["src/fields2cover/types/Graph.cpp: initializeMatrices, reconstructPath, getPaths, shortestPath"]}
{"id": "C17", "title": "Path queries reflect the current edges after any history", "statement": "Whatever sequence of addEdge/addDirectedEdge/removeEdge/removeDirectedEdge and path/cost queries was executed before, a shortest path/cost query answers for the current edge set.", "quantifier": "for every history of mutations and queries", "why_tests_cant": "cache invalidation bugs need a specific history", "anchors": ["src/fields2cover/types/Graph.cpp: addDirectedEdge, removeDirectedEdge, shortestPathsAndCosts, getPaths, getCosts"]}
{"id": "C18", "title": "Cached path matrices stay correct under edge insertion", "statement": "For histories that only add edges and query, every query answer equals the answer of a fresh graph with the same edges (and the INF of the query that filled the cache).", "quantifier": "for every history of insertions and queries", "why_tests_cant": "unbounded interleavings of mutation and query", "anchors": ["src/fields2cover/types/Graph.cpp: addDirectedEdge, getPaths, getCosts, shortestPath, shortestPathCost"]}
{"id": "C19", "title": "Path queries are memory safe on every graph", "statement": "shortestPath, getPaths, getCosts and allPathsBetween do not access memory out of range on any graph built through the public API.", "quantifier": "for every set of node ids and edges", "why_tests_cant": "sink-only or sparse node ids make the matrix smaller than the largest id; the outcome is undefined behaviour that tests do not see", "anchors": ["src/fields2cover/types/Graph.cpp: numNodes, initializeMatrices, allPathsBetween"]}
{"id": "C20", "title": "All-paths search returns exactly the simple paths", "statement": "allPathsBetween(a, b) returns every simple path (no repeated node) from a to b along existing edges exactly once and nothing else; for a = b it is the single path [a].", "quantifier": "for every graph with ids below the node count, all a, b", "why_tests_cant": "soundness and completeness over all graphs", "anchors": ["src/fields2cover/types/Graph.cpp: allPathsBetween, DFS"]}
{"id": "C21", "title": "Point graph keeps points and indices in bijection", "statement": "After any sequence of edge insertions by point, the node indices are exactly 0..numNodes()-1, nodeToIndex and indexToNode are inverse to each other, an index once given to a point never changes, and looking up unknown points or indices raises out_of_range.", "quantifier": "for every history of addEdge/addDirectedEdge calls on points pairwise distinguishable by the map", "why_tests_cant": "history invariant", "anchors": ["src/fields2cover/types/Graph2D.cpp: addDirectedEdge, nodeToIndex, indexToNode, numNodes"]}
{"id": "C22", "title": "Points that compare equal are one node", "statement": "Two points for which Point::operator== holds are the same key of the point graph: equal points have equal hashes and point equality is an equivalence relation.", "quantifier": "for all pairs/triples of points", "why_tests_cant": "tolerance equality versus hash: violating pairs are close points no test uses", "anchors": ["include/fields2cover/types/Point.h: std::hash<f2c::types::Point>", "include/fields2cover/types/Geometry_impl.hpp / src/fields2cover/types/Point.cpp: operator=="]}
{"id": "C23", "title": "Removing an edge removes exactly that edge", "statement": "removeEdge/removeDirectedEdge deletes exactly the named (both / one) direction, leaves all other edge costs and the node count unchanged, and is idempotent; addEdge overwrites the cost of an existing edge and keeps all others.", "quantifier": "for every graph and edge", "why_tests_cant": "frame condition over all other edges", "anchors": ["src/fields2cover/types/Graph.cpp: addDirectedEdge, addEdge, removeDirectedEdge, removeEdge, getCostFromEdge, numEdges"]}
{"id": "C24", "title": "Route keeps connections and swath groups interleaved", "statement": "After any sequence of addSwaths/addSwath/addConnection/addConnectedSwaths the number of connections is the number of swath groups or one more, so every swath group has a connection in front of it and the accessors used to traverse the route are in range.", "quantifier": "for every history of route building operations", "why_tests_cant": "state machine invariant over histories", "anchors": ["src/fields2cover/types/Route.cpp"]}
{"id": "C25", "title": "A route is driven in the order it was built", "statement": "asLineString() lists the points of all added swaths and connections in exactly the order in which they were added, nothing lost, duplicated or reordered; length() is the length of that line.", "quantifier": "for every history of route building operations with arbitrary (also empty) swaths and connections", "why_tests_cant": "refinement of the two interleaved vectors to one sequence, for all histories", "anchors": ["src/fields2cover/types/Route.cpp: addSwaths, addSwath, addConnection, asLineString, length"]}
{"id": "C26", "title": "Route start and end point", "statement": "startPoint()/endPoint() of a route without empty swath groups and empty centre lines are the first/last point of asLineString().", "quantifier": "for every history of route building operations", "why_tests_cant": "histories ending in empty connections, appended groups, etc.", "anchors": ["src/fields2cover/types/Route.cpp: startPoint, endPoint"]}
{"id": "C27", "title": "Inserted connections join end to start", "statement": "addSwath(s, g) inserts as connection the shortest path of g from the current end point of the route to the start of s, before s; earlier parts of the route are unchanged.", "quantifier": "for every route, swath and point graph", "why_tests_cant": "depends on graph and history", "anchors": ["src/fields2cover/types/Route.cpp: addSwath(const Swath&, Graph2D&)"]}
{"id": "C28", "title": "The coverage route visits every swath exactly once", "statement": "If the routing solver returns a tour through all nodes of the coverage graph that only uses existing arcs, the route built from it contains every input swath exactly once (in original direction when redirection is disabled, in either direction otherwise), in tour order, and contains nothing else.", "quantifier": "for every list of swaths with pairwise distinguishable end and middle points, every feasible tour", "why_tests_cant": "all tours of all instances; the solver output is arbitrary", "anchors": ["src/fields2cover/route_planning/route_planner_base.cpp: createCoverageGraph, computeBestRoute, transformSolutionToRoute"]}
{"id": "C29", "title": "Route conversion is safe for every solver answer", "statement": "transformSolutionToRoute and the depot selection are defined behaviour and start at the requested start/end point for every input, including no swaths and start points that coincide with an existing node.", "quantifier": "for every instance", "why_tests_cant": "unsigned underflow and wrong depot index only show on degenerate instances", "anchors": ["src/fields2cover/route_planning/route_planner_base.cpp: computeBestRoute, transformSolutionToRoute, createCoverageGraph"]}
{"id": "C30", "title": "Route cost equals driven length", "statement": "With the direct-distance objective, computeCost(route) equals the length of asLineString() for routes in which each swath group is non-empty and each inner connection is non-empty.", "quantifier": "for every such route", "why_tests_cant": "sum over unbounded structure with case distinctions on empty connections", "anchors": ["src/fields2cover/objectives/rp_obj/rp_objective.cpp: computeCost", "src/fields2cover/objectives/rp_obj/direct_dist_path_obj.cpp"]}
{"id": "C31", "title": "Route cost never misses a jump", "statement": "With the direct-distance objective the cost of a route is never smaller than the length of the line the route describes.", "quantifier": "for every route", "why_tests_cant": "needs routes with an empty connection between swath groups", "anchors": ["src/fields2cover/objectives/rp_obj/rp_objective.cpp: computeCost(const F2CRoute&), computeCost(F2CMultiPoint, F2CSwaths)"]}
{"id": "C32", "title": "Overlap objective counts every pair of swaths", "statement": "The overlap cost of a list of swaths sums the pairwise intersection areas of all unordered pairs of swaths.", "quantifier": "for every list of swaths", "why_tests_cant": "index arithmetic that is right for n = 2 (the tested case) and wrong beyond", "anchors": ["src/fields2cover/objectives/sg_obj/overlaps.cpp: Overlaps::computeCost"]}
{"id": "C33", "title": "Modified swath-count objective uses each border edge once", "statement": "NSwathModified::computeCost(angle, width, cell) is the sum over the border edges of (edge length x |sin(angle between edge and driving direction)|) / (2 width).", "quantifier": "for every closed ring (any number of points), angle, width", "why_tests_cant": "unsigned wrap-around (0 - 1) mod n is harmless for the tested ring sizes only", "anchors": ["src/fields2cover/objectives/sg_obj/n_swath_modified.cpp: NSwathModified::computeCost"]}
{"id": "C34", "title": "Swath objectives are additive and empty-safe", "statement": "Swath count and swath length objectives of a SwathsByCells are the sums over its cells; the number of swaths counts non-empty swaths lists correctly and an empty input costs 0; all swath-generation objectives are defined for the empty list.", "quantifier": "for every list of lists of swaths", "why_tests_cant": "all shapes", "anchors": ["src/fields2cover/objectives/sg_obj/*.cpp"]}
{"id": "C35", "title": "Swath lines leave no gap", "statement": "The parallel lines laid over a cell by generateSwaths (before clipping) are exactly one width apart, the first half a width from the lower border of the rotated cell, and every point of the cell's bounding box in the driving frame is within half a width of one of the lines, inside its extent.", "quantifier": "for every cell (only its bounding box matters), angle, width > 0, both overlap settings", "why_tests_cant": "universally quantified coverage statement over real geometry", "anchors": ["src/fields2cover/swath_generator/swath_generator_base.cpp: generateSwaths", "src/fields2cover/types/Cell.cpp: createStraightLongLine"]}
{"id": "C36", "title": "Swath generation terminates", "statement": "generateSwaths terminates for every operation width and uses ceil(height / width) lines in the no-overlap setting.", "quantifier": "for every width and height", "why_tests_cant": "non-termination for non-positive width; tests never wait", "anchors": ["src/fields2cover/swath_generator/swath_generator_base.cpp: generateSwaths"]}
{"id": "C37", "title": "The overlap setting changes the swaths", "statement": "Allowing overlap adds, when the height is not a multiple of the width, a swath inside the field that the no-overlap setting does not have.", "quantifier": "for every height and width", "why_tests_cant": "tests do not compare both settings", "anchors": ["src/fields2cover/swath_generator/swath_generator_base.cpp: generateSwaths, setAllowOverlap"]}
{"id": "C38", "title": "Brute force returns a best angle of its grid", "statement": "computeBestAngle returns k*step for the smallest k < floor(2 pi / step) whose cost is minimal over the grid, independent of the order in which the parallel algorithm evaluates the angles.", "quantifier": "for every objective (arbitrary cost function), every step in (0, 2 pi], every evaluation schedule", "why_tests_cant": "parallel schedules and arbitrary objectives", "anchors": ["src/fields2cover/swath_generator/brute_force.cpp: computeBestAngle"]}
{"id": "C39", "title": "Brute force is safe for every step angle", "statement": "computeBestAngle is defined behaviour for every step angle accepted by setStepAngle.", "quantifier": "for every step", "why_tests_cant": "steps above 2 pi index an empty vector", "anchors": ["src/fields2cover/swath_generator/brute_force.cpp: computeBestAngle, setStepAngle"]}
{"id": "C40", "title": "Headland swath distances", "statement": "generateHeadlandSwaths(field, w, n) returns n rings whose i-th distance to the border is (i + 1/2) w from outside in, and the same rings in reverse order for the inside-out setting; none for n = 0.", "quantifier": "for every n >= 0, width and field", "why_tests_cant": "unbounded n and the n = 0 boundary", "anchors": ["src/fields2cover/headland_generator/constant_headland.cpp: generateHeadlandSwaths, generateHeadlandArea"]}
{"id": "C41", "title": "Pipeline uses an existing headland ring", "statement": "planCovRoute picks the middle headland swath and this index exists for every configured number of headland swaths.", "quantifier": "for every option value", "why_tests_cant": "boundary value 0 is undefined behaviour", "anchors": ["src/fields2cover.cpp: planCovRoute"]}
{"id": "C42", "title": "Path length and time are additive", "statement": "Concatenating paths concatenates their states; length() is additive and non-negative, task time is additive and non-negative for positive velocities, and both are zero for the empty path.", "quantifier": "for all pairs of paths", "why_tests_cant": "all state lists", "anchors": ["src/fields2cover/types/Path.cpp: operator+=, operator+, length, getTaskTime"]}
{"id": "C43", "title": "Evaluating a path by distance stays on the path", "statement": "Path::at(d) lies on the segment of the state reached after driving distance d (clamped to [0, length()]), at(0) is the first state's point, at(length()) is the end of the path; in exact arithmetic.", "quantifier": "for every path with positive lengths and every distance", "why_tests_cant": "all paths and distances", "anchors": ["src/fields2cover/types/Path.cpp: Path::at, atStart, atEnd", "src/fields2cover/types/PathState.cpp: atEnd"]}
{"id": "C44", "title": "Evaluating a path at its own length gives its end, in double precision", "statement": "path.at(path.length()) is the end point of the path when evaluated in IEEE double arithmetic.", "quantifier": "for every path of doubles", "why_tests_cant": "rounding in the running subtraction differs from rounding in the sum; fails only for specific values", "anchors": ["src/fields2cover/types/Path.cpp: Path::at, length"]}
{"id": "C45", "title": "Discretising a straight state keeps it", "statement": "discretizeSwath(step) keeps total length, time, direction, type and end point of each swath state, produces contiguous sub-states of length at most 1.5 step, and leaves the other states alone; also the height coordinate is kept.", "quantifier": "for every path and step > 0", "why_tests_cant": "all lengths and steps, rounding to number of steps", "anchors": ["src/fields2cover/types/Path.cpp: discretizeSwath"]}
{"id": "C46", "title": "Reducing a path keeps its length", "statement": "reduce(d) keeps the total signed length, the first state, a subsequence of the states, never merges states of different type or direction, only drops states closer than d to the kept one, and is idempotent.", "quantifier": "for every path and d", "why_tests_cant": "all state lists", "anchors": ["src/fields2cover/types/Path.cpp: reduce"]}
{"id": "C47", "title": "Resampling a path keeps its length and its segment types", "statement": "populate(n) with n >= 1 on a path of at least three states yields n states of equal length adding up to the previous length, and each new state has direction, type and velocity of the old state covering its position; shorter paths are unchanged.", "quantifier": "for every path with positive lengths, every n >= 1", "why_tests_cant": "index arithmetic with lower_bound over all paths", "anchors": ["src/fields2cover/types/Path.cpp: populate, discretize"]}
{"id": "C48", "title": "Resampling never deletes a path", "statement": "discretize(step) of a non-empty path is non-empty.", "quantifier": "for every path and step", "why_tests_cant": "a short path rounds to zero points", "anchors": ["src/fields2cover/types/Path.cpp: discretize, populate"]}
{"id": "C49", "title": "Cubic spline interpolates its knots", "statement": "CubicSpline(x, y)(x_i) = y_i for every knot.", "quantifier": "for all knot vectors with increasing x", "why_tests_cant": "the only test uses collinear data", "anchors": ["src/fields2cover/utils/spline.cpp: SetSplineCubic, operator()"]}
{"id": "C50", "title": "Cubic spline is a natural spline beyond its second knot", "statement": "For strictly increasing x the coefficients computed by the spline solve the natural spline equations: no division by zero happens, the interpolant goes through all knots except possibly the second, and is C1 and C2 at all inner knots from the third on.", "quantifier": "for all strictly increasing knot vectors of any size >= 2", "why_tests_cant": "linear system of unbounded size", "anchors": ["src/fields2cover/utils/spline.cpp: SetSplineCubic, operator()"]}
{"id": "C51", "title": "Saving and loading a path round-trips", "statement": "loadFile on an empty path restores the states written by saveToFile up to the decimal rounding of each number, in order; loading into a non-empty path appends.", "quantifier": "for every path and precision", "why_tests_cant": "byte-level codec over all states", "anchors": ["src/fields2cover/types/Path.cpp: serializePath, saveToFile, loadFile"]}
{"id": "C52", "title": "Turn normalisation is lossless", "statement": "transformToNormalTurn yields distance >= 0, start angle in [0, pi], end angle and rotation in [0, 2 pi); rotating/mirroring a turn from (0,0,start) to (dist,0,end) back gives a turn from the requested start pose to the requested end pose.", "quantifier": "for all start/end positions and angles", "why_tests_cant": "real geometry over all poses", "anchors": ["src/fields2cover/path_planning/turning_base.cpp: transformToNormalTurn, createTurn"]}
{"id": "C53", "title": "Turn cache is transparent", "statement": "createTurn with caching enabled returns the same path as with caching disabled.", "quantifier": "for every history of createTurn / setDiscretization / setUsingCache calls, robots and poses", "why_tests_cant": "depends on history of previous calls", "anchors": ["src/fields2cover/path_planning/turning_base.cpp: createTurnIfNotCached, createTurn, setDiscretization"]}
{"id": "C54", "title": "Turn cache only reuses turns of the same quantised key", "statement": "A cached answer was produced earlier by the turn generator for a request with the same max curvature, max curvature derivative, distance and angles up to 1/1000.", "quantifier": "for every history of calls", "why_tests_cant": "history invariant", "anchors": ["src/fields2cover/path_planning/turning_base.cpp: createTurnIfNotCached"]}
{"id": "C55", "title": "Continuous-curvature Dubins retry loop is bounded", "statement": "The retry loop of DubinsCurvesCC tries at most 22 curvatures, each not above the robot's maximum, and returns a turn.", "quantifier": "for every steering answer", "why_tests_cant": "termination for all oracles", "anchors": ["src/fields2cover/path_planning/dubins_curves_cc.cpp: createSimpleTurn"]}
{"id": "C56", "title": "Steering states become a contiguous path", "statement": "steerStatesToPath gives one state per steering state with the same pose, type TURN and the given velocity; each length is the distance to the next state and the last is 0, so the path length is the polyline length.", "quantifier": "for every list of steering states", "why_tests_cant": "all lists", "anchors": ["include/fields2cover/path_planning/steer_to_path.hpp: steerStatesToPath"]}
{"id": "C57", "title": "Planned path contains every swath in order", "statement": "planPath(robot, swaths) contains, as its swath-type states and in order, exactly the segments of the given swaths with the given headings and cruise velocity; everything in between is of turn type.", "quantifier": "for every list of swaths and every turn generator", "why_tests_cant": "unbounded lists and arbitrary turn oracle", "anchors": ["src/fields2cover/path_planning/path_planning.cpp: planPath", "src/fields2cover/types/Path.cpp: appendSwath"]}
{"id": "C58", "title": "Path planning is defined for every route", "statement": "planPath(robot, route) is defined behaviour for every route that the route API can build.", "quantifier": "for every history of route operations", "why_tests_cant": "routes holding only a connection are not tested", "anchors": ["src/fields2cover/path_planning/path_planning.cpp: planPath, planPathForConnection"]}
{"id": "C59", "title": "Connection simplification keeps both end poses", "statement": "simplifyConnection returns a list of poses that starts with the exit pose and ends with the entry pose of the swaths; every inner pose is farther than three safe distances from both ends.", "quantifier": "for every connection of any size", "why_tests_cant": "all point lists", "anchors": ["src/fields2cover/path_planning/path_planning.cpp: simplifyConnection"]}
{"id": "C60", "title": "Angle normalisation", "statement": "mod_2pi(a) is in [0, 2 pi) and differs from a by a multiple of 2 pi; the range claim also holds in floating point arithmetic.", "quantifier": "for every angle", "why_tests_cant": "all reals / all doubles", "anchors": ["include/fields2cover/types/Geometry_impl.hpp: mod, mod_2pi"]}
{"id": "C61", "title": "Angle continuity", "statement": "getAngContinuity(prev, val) differs from val by a multiple of 2 pi and from prev by at most pi; on a vector all consecutive differences are at most pi and each entry is congruent to the input.", "quantifier": "for all angles and vectors", "why_tests_cant": "all reals", "anchors": ["include/fields2cover/types/Geometry_impl.hpp: getAngContinuity"]}
{"id": "C62", "title": "Absolute angle difference is a metric on directions", "statement": "getAngleDiffAbs is symmetric, in [0, pi], 0 exactly for congruent angles, and satisfies the triangle inequality; getAngleAvg(a,b) is at the same difference from a and b, namely half their difference.", "quantifier": "for all angles", "why_tests_cant": "all reals", "anchors": ["include/fields2cover/types/Geometry_impl.hpp: getAngleDiffAbs, getAngleAvg"]}
{"id": "C63", "title": "Rotation about a point is a rigid motion", "statement": "rotateFromPoint keeps the centre and all distances in the plane, composes additively, and rotating by -a undoes rotating by a, for the horizontal coordinates.", "quantifier": "for all points and angles", "why_tests_cant": "all reals", "anchors": ["src/fields2cover/types/Point.cpp: rotateFromPoint"]}
{"id": "C64", "title": "Closest point on a segment, line and ring", "statement": "closestPointInSegment returns a point of the segment at minimal distance; closestPointTo of a line or ring returns a point on it at minimal distance among all its points; including degenerate segments.", "quantifier": "for all points, segments, lines and rings", "why_tests_cant": "minimality over a continuum", "anchors": ["src/fields2cover/types/Point.cpp: closestPointInSegment", "src/fields2cover/types/LineString.cpp: closestPointTo", "src/fields2cover/types/LinearRing.cpp: closestPointTo"]}
{"id": "C65", "title": "Intersection of lines lies on both lines", "statement": "intersectionOfLines returns the common point of two non-parallel lines.", "quantifier": "for all pairs of non-parallel lines", "why_tests_cant": "all reals", "anchors": ["src/fields2cover/types/Point.cpp: intersectionOfLines"]}
{"id": "C66", "title": "Polar coordinates round-trip", "statement": "getPointFromAngle(getAngleFromPoint of b seen from a, distance) gives b back; angles are in [0, 2 pi).", "quantifier": "for all points", "why_tests_cant": "all reals", "anchors": ["include/fields2cover/types/Geometry_impl.hpp", "src/fields2cover/types/Point.cpp: getAngleFromPoint, getPointFromAngle"]}
{"id": "C67", "title": "Convexity test accepts exactly convex borders", "statement": "Cell::isConvex() is true exactly when the border turns to the same side at every vertex, including the start vertex of the ring.", "quantifier": "for every closed ring", "why_tests_cant": "the only-reflex-at-start-vertex rings are not tested", "anchors": ["src/fields2cover/types/Cell.cpp: isConvex"]}
{"id": "C68", "title": "Moving a geometry moves every point by exactly the offset", "statement": "Swath::moveTo, operator+ and scaling of lines change every point by exactly the requested amount.", "quantifier": "for every line and every offset", "why_tests_cant": "write-back through the iterator is skipped for changes below the equality tolerance", "anchors": ["include/fields2cover/types/Geometries_impl.hpp: Iterator::update", "src/fields2cover/types/Swath.cpp: moveTo", "src/fields2cover/types/LineString.cpp: operator*="]}
{"id": "C69", "title": "setGeometry writes exactly one element", "statement": "After setGeometry(i, x) on a multi-line, multi-point or cells container, element i is x, all other existing elements are unchanged and the container has max(old, i+1) elements.", "quantifier": "for every container and index", "why_tests_cant": "frame condition incl. indices past the end and empty elements", "anchors": ["src/fields2cover/types/MultiLineString.cpp: setGeometry", "src/fields2cover/types/Cells.cpp: setGeometry", "src/fields2cover/types/Cell.cpp: setGeometry"]}
{"id": "C70", "title": "Field keeps absolute positions", "statement": "A field built from cells has its first border point as local origin and getCellsAbsPosition() returns the original coordinates; clone keeps id, coordinate systems and absolute positions.", "quantifier": "for every field", "why_tests_cant": "all cells", "anchors": ["src/fields2cover/types/Field.cpp"]}
{"id": "C71", "title": "EPSG codes round-trip", "statement": "setEPSGCoordSystem(n) then getEPSGCoordSystem() gives n, and isCoordSystemEPSG() is true; a non-EPSG system gives -1.", "quantifier": "for every 32-bit n and every coordinate system string", "why_tests_cant": "all strings and ints", "anchors": ["src/fields2cover/types/Field.cpp: setEPSGCoordSystem, getEPSGCoordSystem, isCoordSystemEPSG"]}
{"id": "C72", "title": "UTM zone and hemisphere are recovered", "statement": "For a coordinate system set from UTM zone z in 1..60 and hemisphere N/S, getUTMZone() is z and getUTMHemisphere() is the hemisphere's PROJ flag.", "quantifier": "for every zone, hemisphere and datum", "why_tests_cant": "fixed-width substring parsing is wrong for one-digit zones only", "anchors": ["src/fields2cover/types/Field.cpp: getUTMZone, getUTMHemisphere, getUTMCoordSystem, setUTMCoordSystem", "src/fields2cover/utils/transformation.cpp: transformToUTM, createSptRef"]}
{"id": "C73", "title": "Coordinate transformation can be undone", "statement": "If the CRS library's transformations are mutually inverse, transform(field, B) followed by transformToPrevCRS restores absolute positions, reference point and coordinate system, and the previous system becomes B.", "quantifier": "for every field and pair of systems", "why_tests_cant": "all fields; two-step state", "anchors": ["src/fields2cover/utils/transformation.cpp: transform, transformToPrevCRS, transformToUTM"]}
{"id": "C74", "title": "GML coordinate text is converted faithfully", "statement": "importGml turns the coordinate list 'x,y x,y ...' into the WKT list 'x y, x y, ...' for every text without ';'.", "quantifier": "for every coordinate string", "why_tests_cant": "string algorithm over all strings", "anchors": ["src/fields2cover/utils/parser.cpp: importGml / findAndReplaceAll"]}
{"id": "C75", "title": "Robot constructor validates its widths", "statement": "A robot has positive width and positive coverage width after construction, or construction raised out_of_range; the turn velocity falls back to the cruise velocity; curvature limits are non-negative after setting.", "quantifier": "for all numbers", "why_tests_cant": "all reals", "anchors": ["src/fields2cover/types/Robot.cpp"]}
{"id": "C76", "title": "Objectives with maximisation are minimised with flipped sign", "statement": "computeCostWithMinimizingSign orders candidates so that the smallest value is the best for minimising and maximising objectives alike.", "quantifier": "for every objective and pair of candidates", "why_tests_cant": "all objectives", "anchors": ["include/fields2cover/objectives/base_objective.h"]}
{"id": "C77", "title": "Random cells have the requested area", "statement": "generateRandCell(area, n) raises out_of_range/invalid input for n < 3 or area <= 0; otherwise, when the sampled polygon is not degenerate, the result is a closed ring of n+1 points with exactly the requested area.", "quantifier": "for all areas, n and random draws", "why_tests_cant": "all random seeds", "anchors": ["src/fields2cover/utils/random.cpp: generateRandCell"]}
{"id": "C78", "title": "Splitting cells by lines keeps parts inside", "statement": "Splitting by a list of lines applies the single-line split to every part in sequence; the follow-up growth of the parts written in the code is actually applied.", "quantifier": "for every list of lines and cells", "why_tests_cant": "assignment through the container iterator is silently discarded", "anchors": ["src/fields2cover/types/Cells.cpp: splitByLine", "include/fields2cover/types/Geometries_impl.hpp: Iterator"]}
{"id": "C79", "title": "Line until border stops at the nearest crossing", "statement": "createLineUntilBorder(p, angle) ends at the nearest border crossing farther than the tolerance from p, and is empty when there is none.", "quantifier": "for every set of crossings", "why_tests_cant": "arg-min over all lists", "anchors": ["src/fields2cover/types/Cell.cpp: createLineUntilBorder"]}
{"id": "C80", "title": "Ordering succeeds exactly on usable input and fails in a known way", "statement": "genSortedSwaths succeeds exactly when all widths are positive and the list is empty or the strategy's precondition holds (snake: not exactly one swath; spiral: size not 0; custom: a permutation of 0..n-1); a non-positive width or an invalid custom order raises an exception; undefined behaviour occurs only for snake with exactly one swath and spiral size 0; it always terminates.", "quantifier": "for every list of swaths, strategy and variant", "why_tests_cant": "exact success/failure boundary over all inputs", "anchors": ["src/fields2cover/route_planning/single_cell_swaths_order_base.cpp", "src/fields2cover/route_planning/*_order.cpp", "src/fields2cover/types/Swath.cpp: clone, setWidth"]}
{"id": "C81", "title": "Consistently drawn swaths are driven in alternating directions", "statement": "If all input swaths are drawn so that the direction flag tells the geometric direction (all drawn in one direction, or reversed by reverse()), the result of genSortedSwaths traverses neighbouring swaths in opposite geometric directions.", "quantifier": "for every list of such swaths, strategy and variant", "why_tests_cant": "quantifies over all lists, orders and variants", "anchors": ["src/fields2cover/types/Swaths.cpp: sort, reverseDirOddSwaths", "src/fields2cover/route_planning/single_cell_swaths_order_base.cpp"]}
{"id": "C82", "title": "Start variants of the built-in orders", "statement": "For boustrophedon, snake and spiral order (and custom orders that start with swath 0) variant + 2 gives the same sequence with every swath reversed; for other custom orders it gives the identical result; only variant mod 4 matters; odd variants count swaths from the last one.", "quantifier": "for every list, strategy and variant", "why_tests_cant": "2^32 variants times all lists", "anchors": ["src/fields2cover/route_planning/single_cell_swaths_order_base.cpp: changeStartPoint"]}
{"id": "C83", "title": "Cloning a swath with positive width keeps everything but the type", "statement": "clone() of a swath with positive width keeps id, width, direction flag and centre line (up to text round trip) and sets the type to MAINLAND; clone() of a swath without positive width raises invalid_argument.", "quantifier": "for every swath", "why_tests_cant": "all attribute combinations", "anchors": ["src/fields2cover/types/Swath.cpp: clone"]}
{"id": "C84", "title": "Swath comparison is consistent between swaths of equal direction flag", "statement": "For swaths with the same direction flag == is symmetric, != is its negation, a <= b iff b >= a iff a < b or (equal ids and a == b); every swath equals its own reverse.", "quantifier": "for all pairs of swaths with equal flag", "why_tests_cant": "relational laws quantify over all pairs", "anchors": ["src/fields2cover/types/Swath.cpp: comparison operators"]}
{"id": "C85", "title": "Spiral sizes set by a constructor are safe", "statement": "genSortedSwaths with a SpiralOrder whose size was set by a constructor (clamped to at least 2) succeeds for every list of swaths with positive widths.", "quantifier": "for every constructor argument and list", "why_tests_cant": "all sizes and list lengths", "anchors": ["src/fields2cover/route_planning/spiral_order.cpp"]}
{"id": "C86", "title": "Path queries are safe exactly on dense node ids", "statement": "With costs in [0, INF), computing shortest paths completes normally if and only if every node id (source or target of an edge) is below numNodes(), the number of ids with an outgoing entry; otherwise it accesses memory out of range. All-paths search is safe under the same condition.", "quantifier": "for every graph built through the API, every INF <= 2^62", "why_tests_cant": "the boundary between safe and undefined runs over all graphs", "anchors": ["src/fields2cover/types/Graph.cpp: initializeMatrices, numNodes, allPathsBetween"]}
{"id": "C87", "title": "Shortest paths between points", "statement": "In a point graph built from two-way edges with costs in [0, INF), shortestPath/shortestPathCost between two inserted points are defined; the cost is the minimum over all routes along inserted edges (cut off at INF); the returned points form such a route from the first to the second point, and are empty only when the points are the same node or not connected.", "quantifier": "for every history of two-way insertions and queries and every pair of inserted points", "why_tests_cant": "unbounded graphs and histories, minimality over all routes", "anchors": ["src/fields2cover/types/Graph2D.cpp: shortestPath, shortestPathCost, addEdge"]}
{"id": "C88", "title": "Grid points are proper keys", "statement": "For points whose coordinates are multiples of a step of at least 1e-7, Point::operator== is identity, hence an equivalence relation that every hash respects.", "quantifier": "for every step >= 1e-7 and all pairs of grid points, exact arithmetic", "why_tests_cant": "all coordinates", "anchors": ["src/fields2cover/types/Point.cpp: operator==", "include/fields2cover/types/Point.h: hash"]}
{"id": "C89", "title": "Cloning a route", "statement": "Route::clone() succeeds exactly when every swath has a positive width (otherwise it raises invalid_argument); the clone has the same groups and connections, point for point up to the text round trip, and its line is the original line under that round trip.", "quantifier": "for every route", "why_tests_cant": "all routes", "anchors": ["src/fields2cover/types/Route.cpp: clone"]}
{"id": "C90", "title": "The shortest-path graph connects what the borders connect", "statement": "createShortestGraph succeeds when no ring is empty and every swath end and the start/end point have a closest border point; its nodes are exactly the points of the stub, border and start edges; any two points joined by these edges, or by lying near one of them, are connected by a route in the final graph although edges are split and removed; every edge is a segment between an end of such an edge and a node near it, with the distance of two nodes as cost.", "quantifier": "for all swaths, rings, start points, distance tolerances and hash iteration orders", "why_tests_cant": "splitting removes edges while iterating over a snapshot; connectivity must survive for every iteration order and graph", "anchors": ["src/fields2cover/route_planning/route_planner_base.cpp: createShortestGraph"]}
{"id": "C91", "title": "Route planning end to end", "statement": "If the start/end point and all swath ends are joined along the borders, are pairwise different nodes together with the swath middles, and distances leave room below 2^30, then the coverage graph has a round tour and for whatever round tour the solver returns genRoute returns a route that drives every swath exactly once (forward unless redirecting is allowed) and starts and ends at the start/end point.", "quantifier": "for all fields, swaths, start points and solver answers", "why_tests_cant": "all sizes and all tours the solver may return", "anchors": ["src/fields2cover/route_planning/route_planner_base.cpp: genRoute"]}
{"id": "C92", "title": "Direction of travel at a point of a line", "statement": "getPointAngle(i) is defined exactly for the points of a line with at least two points; at an inner point it is half way (up to full turns) between the incoming and the outgoing direction.", "quantifier": "for all lines and indices", "why_tests_cant": "all sizes, all reals", "anchors": ["src/fields2cover/types/MultiPoint.cpp: getPointAngle, getInAngle, getOutAngle"]}
{"id": "C93", "title": "Angle continuity within the range of int", "statement": "While |prev| + n*pi <= 1e10, getAngContinuity(prev, val) is congruent to val and at most pi from prev; on a vector of n+1 angles every result is congruent to its input and consecutive results differ by at most pi.", "quantifier": "for all such angles and non-empty vectors", "why_tests_cant": "all reals", "anchors": ["include/fields2cover/types/Geometry_impl.hpp: getAngContinuity"]}
{"id": "C94", "title": "Closest point on level lines, rings and borders", "statement": "For lines and rings with at least two points at one height, closestPointTo returns a point on the line at minimal planar distance among all its points; the same for the border of a cell and of a collection of cells.", "quantifier": "for all such lines, rings, cells and points", "why_tests_cant": "minimality over a continuum", "anchors": ["src/fields2cover/types/LineString.cpp: closestPointTo", "src/fields2cover/types/LinearRing.cpp: closestPointTo", "src/fields2cover/types/Cell.cpp: closestPointOnBorderTo", "src/fields2cover/types/Cells.cpp: closestPointOnBorderTo"]}
{"id": "C95", "title": "Route cost and its exact deficit", "statement": "With the direct-distance objective the cost of a route plus the jumps between consecutive swath groups without connection points is the length of the driven line; the cost is never larger than the length.", "quantifier": "for every sequence of building calls whose swaths have at least two points", "why_tests_cant": "all routes", "anchors": ["src/fields2cover/objectives/rp_obj/rp_objective.cpp: computeCost"]}
{"id": "C96", "title": "What the overlap objective computes", "statement": "The overlap cost is the sum of common areas over the pairs of positions (counted from the last swath) i < j with i + j < n, divided by the field area; it is right for at most two swaths and never too large.", "quantifier": "for every list of swaths", "why_tests_cant": "index arithmetic for all n", "anchors": ["src/fields2cover/objectives/sg_obj/overlaps.cpp: Overlaps::computeCost"]}
{"id": "C97", "title": "What the modified swath count computes", "statement": "NSwathModified::computeCost is the sum over border edges of their extent across the driving direction plus, per ring, the extent of the segment from point (2^64-1) mod n to point 0, divided by twice the width; for closed rings whose size is a power of two or divides 2^64-1 the extra segment vanishes.", "quantifier": "for all rings, angles and positive widths", "why_tests_cant": "wrap-around depends on the ring size", "anchors": ["src/fields2cover/objectives/sg_obj/n_swath_modified.cpp: NSwathModified::computeCost"]}
{"id": "C98", "title": "Definedness of swath objectives on a field", "statement": "computeCost(cells, swaths by cells) is defined for every objective and input, except that FieldCoverage needs every list of swaths to be non-empty.", "quantifier": "for all objectives, fields and lists of lists of swaths", "why_tests_cant": "all shapes", "anchors": ["src/fields2cover/objectives/sg_obj/*.cpp"]}
{"id": "C99", "title": "Headland objective is the remaining share", "statement": "HGObjective::computeCost is remaining area / total area and lies in [0,1] whenever the area of the difference is total minus remaining.", "quantifier": "for all areas", "why_tests_cant": "all reals", "anchors": ["src/fields2cover/objectives/hg_obj/hg_objective.cpp"]}
{"id": "C100", "title": "Clipped swath lines cover the cell", "statement": "Every point of the bounding box of a cell (in the driving frame) is within half a width of one of the generated lines that meet the box.", "quantifier": "for every cell, angle, width > 0 and overlap setting", "why_tests_cant": "gap at the upper border depends on height modulo width; tests only sum areas", "anchors": ["src/fields2cover/swath_generator/swath_generator_base.cpp: generateSwaths"]}
{"id": "C101", "title": "Generated swaths carry width, number and order", "statement": "For a positive width generateSwaths returns one MAINLAND swath per line inside the cell, in order, numbered from 0 with the given width; over several cells it does so cell by cell.", "quantifier": "for every cell list, every clipping result", "why_tests_cant": "all clipping results", "anchors": ["src/fields2cover/swath_generator/swath_generator_base.cpp: generateSwaths", "src/fields2cover/types/Swaths.cpp: append"]}
{"id": "C102", "title": "Turn angles", "statement": "atan2 gives the polar angle in (-pi, pi], and getAngleFromPoints(p1, p2, p3) is in [0, 2 pi) and rotates the direction p1-p2 onto the direction p2-p3.", "quantifier": "for all points", "why_tests_cant": "continuous domain", "anchors": ["src/fields2cover/types/Point.cpp: getAngleFromPoints"]}
{"id": "C103", "title": "Angles at the ends of a swath", "statement": "getInAngle and getOutAngle are the direction of the first and last leg, -1 for a swath without points, and raise out_of_range for a single point.", "quantifier": "for every swath", "why_tests_cant": "boundary sizes", "anchors": ["src/fields2cover/types/Swath.cpp: getInAngle, getOutAngle"]}
{"id": "C104", "title": "Swath generation ends with the exact line count", "statement": "For a width above 0 generateSwaths ends; without overlap it lays the smallest n >= 0 lines with height <= n*width, with overlap the smallest n with height <= (n-1/2)*width. For a width of 0 or less it ends only if the height is at most 0 (or at most -width/2 with overlap), with no line.", "quantifier": "for every width, cell, angle and setting", "why_tests_cant": "unbounded number of rounds, non-termination", "anchors": ["src/fields2cover/swath_generator/swath_generator_base.cpp: generateSwaths"]}
{"id": "C105", "title": "Brute force is safe exactly for steps in (0, 2 pi]", "statement": "computeBestAngle returns an angle iff 0 < step <= 2 pi and 2 pi / step < 2^31; larger steps and 0 are undefined behaviour, negative ones down to -2 pi raise length_error.", "quantifier": "for every step, total cost function, evaluation order", "why_tests_cant": "boundary values", "anchors": ["src/fields2cover/swath_generator/brute_force.cpp: computeBestAngle"]}
{"id": "C106", "title": "Middle headland ring", "statement": "For n >= 1 headland swaths planCovRoute picks the ring at (n div 2 + 1/2) widths from the border; for n <= 0 the access is out of bounds.", "quantifier": "for every n, field and width", "why_tests_cant": "boundary values", "anchors": ["src/fields2cover.cpp: planCovRoute"]}
{"id": "C107", "title": "Overlap setting only adds a line outside the field", "statement": "The lines of the overlap setting are those of the no-overlap setting followed by at most one line that lies at least half a width beyond the upper border.", "quantifier": "for every cell of positive height, angle, width > 0", "why_tests_cant": "universally quantified geometry", "anchors": ["src/fields2cover/swath_generator/swath_generator_base.cpp: generateSwaths"]}
{"id": "C108", "title": "Headland rings, both directions", "statement": "generateHeadlandSwaths gives n rings at (i + 1/2) widths outside in for n >= 0; inside out gives the same rings reversed for n >= 1 whenever growing a ring by one width gives back the previous ring.", "quantifier": "for every n, field, buffer operation", "why_tests_cant": "unbounded n", "anchors": ["src/fields2cover/headland_generator/constant_headland.cpp: generateHeadlandSwaths"]}
{"id": "C109", "title": "Unsorted knots are rejected", "statement": "The spline constructor throws out_of_range whenever the knots are not strictly increasing.", "quantifier": "for all knot vectors", "why_tests_cant": "the check starts at the second knot", "anchors": ["src/fields2cover/utils/spline.cpp: CubicSpline, SetSplineCubic"]}
{"id": "C110", "title": "Errors of the spline constructor", "statement": "The constructor throws out_of_range for vectors of different sizes, fewer than two knots, or a knot from the second on not above its predecessor; with monotonic = true it reads past the end of the coefficient vector for all valid knots.", "quantifier": "for all knot vectors", "why_tests_cant": "all sizes", "anchors": ["src/fields2cover/utils/spline.cpp: CubicSpline, SetSplineCubic"]}
{"id": "C111", "title": "A path can be appended to itself", "statement": "path += path gives the states twice.", "quantifier": "for every path", "why_tests_cant": "iterator invalidation depends on the capacity", "anchors": ["src/fields2cover/types/Path.cpp: operator+="]}
{"id": "C112", "title": "Moving, turning and mirroring a path moves its curve", "statement": "moveTo, rotateFromPoint, mirrorX and mirrorY apply the same motion to every point along every state, keep length, direction, type and velocity, and keep contiguous paths contiguous; new angles are in [0, 2 pi). Mirroring keeps heights; turning sets them to 0.", "quantifier": "for every path and motion", "why_tests_cant": "all paths and angles", "anchors": ["src/fields2cover/types/Path.cpp: moveTo, rotateFromPoint, mirrorX, mirrorY"]}
{"id": "C113", "title": "Path setters change exactly one field", "statement": "setBackwardDir, setForwardDir, setSwathType and setTurnType set that field of all states (or of state i, defined exactly for indices in range) and nothing else.", "quantifier": "for every path and index", "why_tests_cant": "all paths", "anchors": ["src/fields2cover/types/Path.cpp: setBackwardDir, setForwardDir, setSwathType, setTurnType"]}
{"id": "C114", "title": "Path bounding box", "statement": "getDimMinX/MaxX/MinY/MaxY return the smallest and largest coordinate of the state points, and are undefined exactly for an empty path.", "quantifier": "for every path", "why_tests_cant": "all paths", "anchors": ["src/fields2cover/types/Path.cpp: getDimMinX, getDimMaxX, getDimMinY, getDimMaxY"]}
{"id": "C115", "title": "Appending a swath drives along it", "statement": "appendSwath adds one forward swath state per segment, contiguous, starting at each point and ending at the next, with total length that of the swath; a swath without points throws out_of_range.", "quantifier": "for every path and swath", "why_tests_cant": "all polylines", "anchors": ["src/fields2cover/types/Path.cpp: appendSwath"]}
{"id": "C116", "title": "Polyline of a path", "statement": "toLineString consists of the state points followed by the end of the last state, and is undefined for an empty path.", "quantifier": "for every path", "why_tests_cant": "all paths", "anchors": ["src/fields2cover/types/Path.cpp: toLineString, atEnd"]}
{"id": "C117", "title": "Resampling paths that are short or do not move", "statement": "populate leaves paths of fewer than three states alone and throws out_of_range when no state has a length.", "quantifier": "for every path and count", "why_tests_cant": "all paths", "anchors": ["src/fields2cover/types/Path.cpp: populate"]}
{"id": "C118", "title": "Resampling with a negative count is safe", "statement": "populate(n) has defined behaviour for negative n.", "quantifier": "for every path and n < 0", "why_tests_cant": "signed to unsigned conversion in the loop bound", "anchors": ["src/fields2cover/types/Path.cpp: populate"]}
{"id": "C119", "title": "Discretising keeps the length unless the path is tiny", "statement": "discretize(step) keeps the length and is non-empty when 10 length / step >= 1, no two neighbours of the result could be merged, the result is empty below 1 for paths of three or more states; paths of at most one state are unchanged and paths of two are only reduced; step 0 is undefined.", "quantifier": "for every path with non-negative lengths and step > 0", "why_tests_cant": "all paths and steps", "anchors": ["src/fields2cover/types/Path.cpp: discretize, populate, reduce"]}
{"id": "C120", "title": "Swath constructors and setters", "statement": "Every constructor gives id, path, width, creation direction and type as documented (0, empty, 0, true, MAINLAND where not given), a width that is not positive throws invalid_argument, and each setter changes exactly its own field.", "quantifier": "for all arguments", "why_tests_cant": "all field values", "anchors": ["src/fields2cover/types/Swath.cpp: Swath, setId, setPath, setWidth, setCreationDir, setType, reverse"]}
{"id": "C121", "title": "What createTurn returns", "statement": "createTurn returns the generated or stored turn mirrored if the start heading was below the line, rotated and moved to the start, with normalised headings and unchanged lengths, directions, types and velocities; the first and last point are replaced by the asked ones when less than 0.05 away; fewer than two states give an empty path. It is defined whenever the generator is and the key numbers are below 2147483.", "quantifier": "for every planner state, robot, generator and pair of poses", "why_tests_cant": "arbitrary generator", "anchors": ["src/fields2cover/path_planning/turning_base.cpp: createTurn, correctPath"]}
{"id": "C122", "title": "A turn connects the asked poses", "statement": "If the generator's turn goes from (0,0) with the normal start heading to (dist,0) with the normal end heading, createTurn returns a turn that starts exactly at the asked start point and heading and ends exactly at the asked end point and heading, of the same length and time, contiguous when the generated one is.", "quantifier": "for every planner state, robot and pair of poses", "why_tests_cant": "all poses", "anchors": ["src/fields2cover/path_planning/turning_base.cpp: createTurn, correctPath"]}
{"id": "C123", "title": "Creating a turn is defined for every robot", "statement": "createTurn with caching is defined behaviour for every robot that the robot interface can build.", "quantifier": "for every robot", "why_tests_cant": "integer overflow in the cache key", "anchors": ["src/fields2cover/path_planning/turning_base.cpp: createTurnIfNotCached", "src/fields2cover/types/Robot.cpp: setMinTurningRadius"]}
{"id": "C124", "title": "Meaning of isTurnValid", "statement": "isTurnValid is true exactly when no point is below -max_dist, the last heading has cosine difference at most max_rot_error from the asked one, and the end of the last state is within max_dist in x and y of (dist, 0); it is undefined exactly for an empty path.", "quantifier": "for every path", "why_tests_cant": "all paths", "anchors": ["src/fields2cover/path_planning/turning_base.cpp: isTurnValid"]}
{"id": "C125", "title": "Directions of turn states are enumerators", "statement": "Every state made by steerStatesToPath has direction FORWARD or BACKWARD.", "quantifier": "for every list of steering states", "why_tests_cant": "the cast accepts any number", "anchors": ["include/fields2cover/path_planning/steer_to_path.hpp: steerStatesToPath"]}
{"id": "C126", "title": "Meaning of loop_detected", "statement": "loop_detected is true exactly when one control turns by more than 0.9 full turns, the net turn exceeds 0.9 or the absolute turns sum to more than 1.5.", "quantifier": "for every list of controls", "why_tests_cant": "all lists", "anchors": ["include/fields2cover/path_planning/steer_to_path.hpp: loop_detected"]}
{"id": "C127", "title": "Robot setters change exactly one value", "statement": "Each setter changes only its own value; curvature limits are stored without sign; the turn velocity follows the cruise velocity until set.", "quantifier": "for every robot and value", "why_tests_cant": "all values", "anchors": ["src/fields2cover/types/Robot.cpp: setters and getters"]}
{"id": "C128", "title": "Turning radius round trip", "statement": "getMinTurningRadius after setMinTurningRadius(r) differs from |r| by at most 1e-7 (1 + (|r| + 1e-7)^2); the stored curvature is positive and below 1/|r|.", "quantifier": "for every robot and r", "why_tests_cant": "all values", "anchors": ["src/fields2cover/types/Robot.cpp: setMinTurningRadius, getMinTurningRadius"]}
{"id": "C129", "title": "A robot always has positive widths", "statement": "Every robot object has positive width and coverage width.", "quantifier": "for every sequence of constructor and setter calls", "why_tests_cant": "default construction and setters", "anchors": ["src/fields2cover/types/Robot.cpp: Robot, setWidth, setCovWidth"]}
{"id": "C130", "title": "Path planning is defined for plannable routes", "statement": "planPath(robot, route) is defined when there are at least as many connections as swath groups, swaths have two or more points, no single-point connection lies next to a missing group, and a leftover connection has a group before it.", "quantifier": "for every such route, every turn planner (with or without cache) defined between places of a convex set with the points of the route", "why_tests_cant": "all routes", "anchors": ["src/fields2cover/path_planning/path_planning.cpp: planPath, planPathForConnection"]}
{"id": "C131", "title": "Simplified connections hold only entering poses", "statement": "Every inner pose of a simplified connection is the pose entering a bend; the pose leaving a bend is within two safe distances of the entering one, so the test for adding it never holds.", "quantifier": "for every connection and robot", "why_tests_cant": "dead code", "anchors": ["src/fields2cover/path_planning/path_planning.cpp: simplifyConnection"]}
{"id": "C132", "title": "Slight changes of direction are not bends", "statement": "An inner point of a connection where the direction changes by at most 0.1 is not treated as a bend.", "quantifier": "for every connection", "why_tests_cant": "needs headings on both sides of the x axis", "anchors": ["src/fields2cover/path_planning/path_planning.cpp: simplifyConnection"]}
{"id": "C133", "title": "Path planning accepts single-point connections", "statement": "planPath(robot, route) returns a path for every route with at least one swath, also when the first or last connection is one point.", "quantifier": "for every such route", "why_tests_cant": "needs single-point connections", "anchors": ["src/fields2cover/path_planning/path_planning.cpp: planPathForConnection", "src/fields2cover/types/MultiPoint.cpp: getInAngle, getOutAngle"]}
{"id": "C134", "title": "Moving and scaling by more than the tolerance", "statement": "moveTo moves every point of a swath by exactly the offset, and nothing else, when some coordinate of it is at least 1e-7, and does nothing for smaller offsets; scaling multiplies each point, leaving exactly those whose image is within 1e-7 in every coordinate.", "quantifier": "for every geometry, offset and factor", "why_tests_cant": "all geometries", "anchors": ["include/fields2cover/types/Geometries_impl.hpp: Iterator::update", "src/fields2cover/types/Swath.cpp: moveTo", "src/fields2cover/types/LineString.cpp: operator*="]}
{"id": "C135", "title": "setGeometry at each index", "statement": "setGeometry(i, x) with i inside the container replaces exactly element i; what happens at and past the end is as proved per container (padding with empty parts then the element; rings are closed; points are extended).", "quantifier": "for every container and index", "why_tests_cant": "all containers", "anchors": ["src/fields2cover/types/MultiLineString.cpp: setGeometry", "src/fields2cover/types/Cells.cpp: setGeometry", "src/fields2cover/types/Cell.cpp: setGeometry", "src/fields2cover/types/LineString.cpp: setGeometry", "src/fields2cover/types/MultiPoint.cpp: setGeometry"]}
{"id": "C136", "title": "Translating cells is exact", "statement": "cells + p and cells - p move every point by exactly p, keeping the structure, for closed rings without empty parts.", "quantifier": "for all cells and offsets", "why_tests_cant": "all shapes", "anchors": ["src/fields2cover/types/Cells.cpp: operator+, operator-", "src/fields2cover/types/Cell.cpp: addRing"]}
{"id": "C137", "title": "Meaning of the convexity test", "statement": "isConvex is true exactly when the border has positive area, no holes, and turns left or goes straight on at every point but the first, or right or straight back at each of them; together with the turn at the first point this is convexity for rings without straight vertices; cells other than a single one are not convex.", "quantifier": "for every ring", "why_tests_cant": "all rings", "anchors": ["src/fields2cover/types/Cell.cpp: isConvex", "src/fields2cover/types/Cells.cpp: isConvex"]}
{"id": "C138", "title": "Helper lines are long enough", "statement": "createSemiLongLine and createStraightLongLine from a point in the bounding box of the cell reach at least as far as every point of the box, in the asked direction (and its opposite).", "quantifier": "for every cell, point in its box and angle", "why_tests_cant": "all cells and angles", "anchors": ["src/fields2cover/types/Cell.cpp: createSemiLongLine, createStraightLongLine, getMinSafeLength"]}
{"id": "C139", "title": "Cell at a point", "statement": "getCellWherePoint returns the first cell the point touches or lies in, and an empty cell when there is none.", "quantifier": "for every list of cells", "why_tests_cant": "all lists", "anchors": ["src/fields2cover/types/Cells.cpp: getCellWherePoint"]}
{"id": "C140", "title": "What an EPSG text is read as", "statement": "For a text of EPSG: followed by blanks, an optional sign, digits and anything not a digit, getEPSGCoordSystem returns the signed number if it fits an int and throws out_of_range otherwise.", "quantifier": "for every such text", "why_tests_cant": "all texts", "anchors": ["src/fields2cover/types/Field.cpp: getEPSGCoordSystem"]}
{"id": "C141", "title": "EPSG codes anywhere in the text", "statement": "A text that isCoordSystemEPSG accepts and that contains EPSG:n gives n.", "quantifier": "for every text", "why_tests_cant": "tests only use texts starting with EPSG:", "anchors": ["src/fields2cover/types/Field.cpp: isCoordSystemEPSG, getEPSGCoordSystem"]}
{"id": "C142", "title": "What the UTM expressions find", "statement": "getUTMCoordSystem returns the code at the first place with UTM, signs, digits and a letter or underscore (or at least two digits if none follows), getUTMDatum the name at the first place with datum, signs and a name; the given default otherwise.", "quantifier": "for every text", "why_tests_cant": "all texts", "anchors": ["src/fields2cover/types/Field.cpp: getUTMCoordSystem, getUTMDatum, isCoordSystemUTM"]}
{"id": "C143", "title": "Two-digit zones are recovered", "statement": "For every two-digit zone, hemisphere letter in either case and datum text, getUTMZone and getUTMHemisphere of the system set by setUTMCoordSystem give the zone and the hemisphere flag.", "quantifier": "for every zone and datum", "why_tests_cant": "all texts", "anchors": ["src/fields2cover/types/Field.cpp: setUTMCoordSystem, getUTMZone, getUTMHemisphere"]}
{"id": "C144", "title": "Setting a UTM system keeps code and datum", "statement": "After setUTMCoordSystem(utm) the code and datum found in the system are those found in utm (etrs89 if it has none), and setting it again changes nothing.", "quantifier": "for every text with a code", "why_tests_cant": "all texts", "anchors": ["src/fields2cover/types/Field.cpp: setUTMCoordSystem"]}
{"id": "C145", "title": "Hemisphere of every accepted UTM text", "statement": "getUTMHemisphere returns for every text accepted by isCoordSystemUTM.", "quantifier": "for every text", "why_tests_cant": "needs malformed texts", "anchors": ["src/fields2cover/types/Field.cpp: isCoordSystemUTM, getUTMHemisphere"]}
{"id": "C146", "title": "Absolute positions of a field", "statement": "A field built from cells has the first border point as reference, and its absolute positions are the given ones up to twice the error of the text round trip; the same for a clone.", "quantifier": "for all cells", "why_tests_cant": "all shapes", "anchors": ["src/fields2cover/types/Field.cpp: Field(cells, id), getCellsAbsPosition, clone"]}
{"id": "C147", "title": "Fields from any non-empty cells", "statement": "Field(cells, id) succeeds for all cells that are not empty.", "quantifier": "for all cells", "why_tests_cant": "needs an empty first polygon", "anchors": ["src/fields2cover/types/Field.cpp: Field(cells, id)", "src/fields2cover/types/Cells.cpp: getCellBorder"]}
{"id": "C148", "title": "What a system text asks for", "statement": "createSptRef refuses empty and unknown texts (or gives an empty reference if silent), imports n for EPSG:n, and for UTM texts with a two-digit zone imports the PROJ text of that zone, hemisphere and datum, ETRS89 in any letter case being given as an ellipsoid.", "quantifier": "for every text of these forms", "why_tests_cant": "all texts", "anchors": ["src/fields2cover/utils/transformation.cpp: createSptRef"]}
{"id": "C149", "title": "PROJ text of every zone", "statement": "For every zone 1..60 and hemisphere, createSptRef imports the PROJ text with that zone and hemisphere.", "quantifier": "for every zone", "why_tests_cant": "needs one-digit zones in the south", "anchors": ["src/fields2cover/utils/transformation.cpp: createSptRef, transformToUTM"]}
{"id": "C150", "title": "The UTM zone contains the field", "statement": "The zone in the system chosen by transformToUTM is the one containing the longitude, the hemisphere is north exactly when the latitude is positive, and the datum follows the geographic system.", "quantifier": "for all longitudes in [-180, 180]", "why_tests_cant": "all longitudes, boundary 180", "anchors": ["src/fields2cover/utils/transformation.cpp: transformToUTM"]}
{"id": "C151", "title": "Transforming a field moves its positions", "statement": "transform(field, B) moves the absolute positions by the conversion, makes the first border point the reference, records the previous system and keeps the id; transforming back restores positions up to the text precision.", "quantifier": "for all fields, systems and conversions", "why_tests_cant": "all fields", "anchors": ["src/fields2cover/utils/transformation.cpp: transform, transformToPrevCRS"]}
{"id": "C152", "title": "A failed transformation leaves the field alone", "statement": "If transform(field, B) throws, the field is where it was.", "quantifier": "for all fields and systems", "why_tests_cant": "needs an exception in the middle", "anchors": ["src/fields2cover/utils/transformation.cpp: transform"]}
{"id": "C153", "title": "Transformed swaths keep their attributes", "statement": "transformSwathWithFieldRef converts the points and keeps id, width, type and direction.", "quantifier": "for all swaths", "why_tests_cant": "needs headland or reversed swaths", "anchors": ["src/fields2cover/utils/transformation.cpp: transformSwathWithFieldRef, transformSwath"]}
{"id": "C154", "title": "Transformed paths", "statement": "transformPathWithFieldRef converts each point, adds a state at the end of the path if the last state has a length, makes every state but the last point to the next one, and keeps direction, type and velocity; forward paths become contiguous.", "quantifier": "for all paths", "why_tests_cant": "all paths", "anchors": ["src/fields2cover/utils/transformation.cpp: transformPathWithFieldRef"]}
{"id": "C155", "title": "Transformed paths stay connected", "statement": "If the path is contiguous, so is the result of transformPathWithFieldRef.", "quantifier": "for all paths", "why_tests_cant": "needs backward states", "anchors": ["src/fields2cover/utils/transformation.cpp: transformPathWithFieldRef"]}
{"id": "C156", "title": "transformPath keeps paths connected", "statement": "If the path is contiguous, so is the result of transformPath.", "quantifier": "for all paths", "why_tests_cant": "needs a conversion that changes lengths", "anchors": ["src/fields2cover/utils/transformation.cpp: transformPath"]}
{"id": "C157", "title": "Transformed routes", "statement": "transformRouteWithFieldRef converts every point of every swath and of every connection, keeping the structure.", "quantifier": "for all routes", "why_tests_cant": "all routes", "anchors": ["src/fields2cover/utils/transformation.cpp: transformRouteWithFieldRef, transformMultiPointWithFieldRef"]}
{"id": "C158", "title": "To UTM and back", "statement": "transformToUTM goes through EPSG:4326 (EPSG:4258 in Europe if asked) to the UTM zone of the reference point there, records the original system, and transformToPrevCRS restores the absolute positions and the system; fields without a system are taken as geographic when they look so, and refused otherwise.", "quantifier": "for all fields and conversions that compose", "why_tests_cant": "all fields", "anchors": ["src/fields2cover/utils/transformation.cpp: transformToUTM, transformToPrevCRS"]}
{"id": "C159", "title": "Replacing all occurrences", "statement": "findAndReplaceAll terminates for every text and non-empty pattern and replaces exactly the occurrences found from the left.", "quantifier": "for all texts, patterns and replacements", "why_tests_cant": "all texts, including replacements that contain the pattern", "anchors": ["src/fields2cover/utils/parser.cpp: importFieldGml (findAndReplaceAll)"]}
{"id": "C160", "title": "Importing a GML parcel", "statement": "A parcel of the expected shape becomes a field with its id, coordinate system and the positions of the converted coordinate list, appended to the fields.", "quantifier": "for all documents, coordinate lists and WKT parsers", "why_tests_cant": "all documents", "anchors": ["src/fields2cover/utils/parser.cpp: importFieldGml, importGml"]}
{"id": "C161", "title": "Malformed GML is refused", "statement": "A document of another shape, or with coordinates that GDAL rejects, makes importFieldGml throw.", "quantifier": "for all documents", "why_tests_cant": "all malformed documents", "anchors": ["src/fields2cover/utils/parser.cpp: importFieldGml"]}
{"id": "C162", "title": "White space between GML tuples", "statement": "Coordinate tuples separated by any XML white space become separate positions.", "quantifier": "for all coordinate texts", "why_tests_cant": "all separators", "anchors": ["src/fields2cover/utils/parser.cpp: importFieldGml"]}
{"id": "C163", "title": "Importing JSON polygons", "statement": "A polygon feature whose positions have two or three numbers becomes a cell with all rings and positions in order, closed if needed; importCellJson reads the first feature and throws if there is none.", "quantifier": "for all documents", "why_tests_cant": "all documents", "anchors": ["src/fields2cover/utils/parser.cpp: getPointFromJson, getCellFromJson, importCellJson"]}
{"id": "C164", "title": "No position is lost", "statement": "Every position of a JSON ring is read with its coordinates or refused.", "quantifier": "for all positions", "why_tests_cant": "positions of any size", "anchors": ["src/fields2cover/utils/parser.cpp: getPointFromJson"]}
{"id": "C165", "title": "Importing JSON fields", "statement": "Every polygon feature with a border and a name becomes a field with that name and those positions, appended in order; a feature without a name throws, and the fields before it stay.", "quantifier": "for all documents and earlier fields", "why_tests_cant": "all documents", "anchors": ["src/fields2cover/utils/parser.cpp: importJson"]}
{"id": "C166", "title": "Malformed JSON features are refused", "statement": "A feature without geometry makes the importers throw.", "quantifier": "for all documents", "why_tests_cant": "all malformed documents", "anchors": ["src/fields2cover/utils/parser.cpp: getCellFromJson, importJson, importCellJson"]}
{"id": "C167", "title": "Importing JSON swaths", "statement": "Swath features are read in order with points, width and number; a width that is not positive throws.", "quantifier": "for all documents", "why_tests_cant": "all documents", "anchors": ["src/fields2cover/utils/parser.cpp: importSwathsJson"]}
{"id": "C168", "title": "Importing JSON strips", "statement": "Strip features are read in order with name and closed rings.", "quantifier": "for all documents", "why_tests_cant": "all documents", "anchors": ["src/fields2cover/utils/parser.cpp: importStripsJson"]}
{"id": "C169", "title": "Saving and loading at any precision", "statement": "Whatever the precision, loadFile appends one state per saved state, in order, with the same direction and section type, and with every number rounded to that many significant decimal digits (at least one) and then to a double.", "quantifier": "for all paths whose numbers are finite and at most 2^1023, all precisions and all previous contents", "why_tests_cant": "byte-level codec over all doubles", "anchors": ["src/fields2cover/types/Path.cpp: to_string, serializePath, saveToFile, loadFile"]}
{"id": "C170", "title": "Saving with 17 digits is exact", "statement": "With a precision of 17 or more, loadFile after saveToFile gives back every state bit by bit, appended to what the path held.", "quantifier": "for all paths of finite numbers (also subnormal and the largest double), all precisions >= 17", "why_tests_cant": "needs all 2^64 doubles", "anchors": ["src/fields2cover/types/Path.cpp: to_string, serializePath, saveToFile, loadFile"]}
{"id": "C171", "title": "Loading any file ends", "statement": "loadFile ends on every file, throws nothing, keeps the states the path had and appends behind them.", "quantifier": "for all file contents, well formed or not", "why_tests_cant": "all byte strings", "anchors": ["src/fields2cover/types/Path.cpp: loadFile"]}
{"id": "C172", "title": "Undefined numbers are kept", "statement": "A path holding an infinite or undefined number is saved and loaded with all its states.", "quantifier": "for all paths", "why_tests_cant": "states with special numbers", "anchors": ["src/fields2cover/types/Path.cpp: to_string, serializePath, loadFile"]}
{"id": "C173", "title": "Where loading stops", "statement": "Loading a saved path gives the states before the first one that holds an infinite or undefined number, and nothing of what follows: exactly those states from 17 digits on, those states rounded as in C169 with fewer; a file of two paths one after the other is the file of the joined path.", "quantifier": "for all paths, all positions of the bad state, all precisions", "why_tests_cant": "states with special numbers at any position", "anchors": ["src/fields2cover/types/Path.cpp: to_string, serializePath, loadFile"]}
{"id": "C174", "title": "Default precision keeps positions", "statement": "A saved and loaded path with the default precision stays within a centimetre of the original positions.", "quantifier": "for all paths in metres", "why_tests_cant": "large UTM coordinates", "anchors": ["src/fields2cover/types/Path.cpp: serializePath, saveToFile", "include/fields2cover/types/Path.h: default precision"]}
{"id": "C175", "title": "The problem handed to the solver", "statement": "The coverage graph has exactly these arcs: along each swath through its middle at no cost, from the end of each swath to the start of each swath (between all ends when redirecting is allowed) and both ways between the start/end point and all swath ends at the least cost of a route along the border graph, and both ways at no cost between a far point and all swath ends when there is no start/end point.", "quantifier": "for all swaths, borders and start/end points whose nodes are pairwise different and joined along the borders, both values of redirect", "why_tests_cant": "graphs of any size; costs compared against all routes", "anchors": ["src/fields2cover/route_planning/route_planner_base.cpp: createShortestGraph, createCoverageGraph"]}
{"id": "C176", "title": "Where a state ends", "statement": "PathState::atEnd is len ahead of the state when driving forward and len behind it when driving backward, at height 0; a path without states answers every position with a state at the origin, forward, on a swath, with velocity 1.", "quantifier": "for all states and all positions asked", "why_tests_cant": "all states", "anchors": ["src/fields2cover/types/Path.cpp: at", "src/fields2cover/types/PathState.cpp: atEnd"]}
{"id": "C177", "title": "Order and inequality of points", "statement": "operator< of points orders by x and then by y and is a strict total order on the plane, ignoring the height; operator!= is the negation of operator==.", "quantifier": "for all points", "why_tests_cant": "all points", "anchors": ["src/fields2cover/types/Point.cpp: operator<, operator==, operator!="]}
{"id": "C178", "title": "Hash of a point", "statement": "The hash of a point is the key cut towards zero; it is defined exactly when the key is above -1 and below 2^64.", "quantifier": "for all points of doubles", "why_tests_cant": "needs negative and huge coordinates", "anchors": ["include/fields2cover/types/Point.h: std::hash"]}
{"id": "C179", "title": "Sizes of an empty cell", "statement": "A cell without points has height 0 and safe length 0.", "quantifier": "for all cells whose rings are empty", "why_tests_cant": "degenerate cells of any number of rings", "anchors": ["include/fields2cover/types/Geometry_impl.hpp: getHeight, getMinSafeLength"]}
{"id": "C180", "title": "Reading the parts of a collection", "statement": "getGeometry(i) gives part i for every part that was added and throws out_of_range for every other index.", "quantifier": "for all collections and indices", "why_tests_cant": "collections of any size and content", "anchors": ["src/fields2cover/types/MultiLineString.cpp: getGeometry", "src/fields2cover/types/Cells.cpp: getGeometry"]}
{"id": "C181", "title": "A UTM zone for every longitude", "statement": "transformToUTM finds a zone name for every longitude of a geographic system.", "quantifier": "for all longitudes", "why_tests_cant": "longitudes outside [-186, 180]", "anchors": ["src/fields2cover/utils/transformation.cpp: transformToUTM"]}
{"id": "C182", "title": "JSON documents of any shape", "statement": "importJson ends on every document, keeps the fields it was given, appends behind them, and adds nothing for documents without features; a document that is neither null nor an object throws; it is undefined only when a feature lacks its geometry or coordinates.", "quantifier": "for all JSON values and earlier fields", "why_tests_cant": "all documents", "anchors": ["src/fields2cover/utils/parser.cpp: importJson, getCellFromJson"]}
{"id": "C183", "title": "Numbers of JSON swaths", "statement": "The number of a JSON swath is an integer reduced to 32 bits, or another number cut at the point (undefined behaviour outside the range of int), or 0 or 1 for a boolean; anything else throws.", "quantifier": "for all features with points and a positive width", "why_tests_cant": "all number values", "anchors": ["src/fields2cover/utils/parser.cpp: importSwathsJson"]}
{"id": "C184", "title": "Transformations that cannot be made", "statement": "A transformation GDAL cannot make is refused with an exception, and so is going back to a previous system that is not known.", "quantifier": "for all fields and pairs of systems", "why_tests_cant": "needs failing GDAL calls", "anchors": ["src/fields2cover/utils/transformation.cpp: transform, generateCoordTransf, transformToPrevCRS"]}
{"id": "C185", "title": "Random cells are never degenerate", "statement": "For every sequence of random draws, n >= 3 and positive widths, the drawn polygon has an area, so that generateRandCell returns a cell with finite coordinates.", "quantifier": "for all draws, areas, n >= 3 and widths", "why_tests_cant": "needs particular draws", "anchors": ["src/fields2cover/utils/random.cpp: generateRandCell"]}
{"id": "C186", "title": "Random convex and non-convex cells and fields", "statement": "What genConvexCell and genNonConvexCell return was drawn by generateRandCell and passes (fails) the convexity test; fewer than three sides or an area that is not positive throws; a random field has the positions of its cell.", "quantifier": "for all draws, areas and numbers of sides", "why_tests_cant": "all seeds", "anchors": ["src/fields2cover/utils/random.cpp: genConvexCell, genNonConvexCell, generateRandField"]}
{"id": "C187", "title": "Ranges of random numbers", "statement": "getRandomLinear(a, b) and getRandomExp(a, b) lie in [a, b), getRandomDouble in [0, 1), getAngleRandom in [0, 2 pi), getRandomExpDist is not negative, and each consumes one draw.", "quantifier": "for all draws and bounds with a < b (0 < a for getRandomExp)", "why_tests_cant": "all seeds", "anchors": ["src/fields2cover/utils/random.cpp: getRandomLinear, getRandomDouble, getRandomExp, getRandomExpDist, getAngleRandom"]}
{"id": "C188", "title": "Exponential draws are positive", "statement": "getRandomExpDist returns a number > 0, as documented.", "quantifier": "for all draws", "why_tests_cant": "a draw of 0", "anchors": ["src/fields2cover/utils/random.cpp: getRandomExpDist", "include/fields2cover/utils/random.h: getRandomExpDist"]}
{"id": "C189", "title": "Swaths behave as values as long as no shared line is changed", "statement": "A program that never changes a line in place while something else points to it gives every variable the value it would have if copies were values; in particular every program that clones instead of copying.", "quantifier": "for all programs of any length over any number of variables of the operations modelled", "why_tests_cant": "all histories of copies and changes", "anchors": ["include/fields2cover/types/Geometry_impl.hpp: copy constructor, operator=", "src/fields2cover/types/Swath.cpp: copy constructor, operator=, reverse, moveTo, clone, setPath, getPath", "src/fields2cover/types/Swaths.cpp: emplace_back, push_back, append, sort, reverseDirOddSwaths, moveTo, clone"]}
{"id": "C190", "title": "Clones are apart from everything", "statement": "A clone, and the result of an ordering, shares no line with any other variable; two groups of variables that share no line stay so under every program whose statements stay in one group or clone across, and a program within one group leaves the values of the other.", "quantifier": "for all programs, groups of variables and histories before", "why_tests_cant": "all histories", "anchors": ["include/fields2cover/types/Geometry_impl.hpp: copy constructor, operator=", "src/fields2cover/types/Swath.cpp: copy constructor, operator=, reverse, moveTo, clone, setPath, getPath", "src/fields2cover/types/Swaths.cpp: emplace_back, push_back, append, sort, reverseDirOddSwaths, moveTo, clone", "src/fields2cover/types/SwathsByCells.cpp: clone"]}
{"id": "C191", "title": "What a change of a shared line does", "statement": "Reversing a swath reverses the points, but not the direction flag, of every other swath with the same line; moving a container moves a line once for each of its swaths that point to it; nothing else changes.", "quantifier": "for all states of the variables", "why_tests_cant": "all patterns of sharing", "anchors": ["include/fields2cover/types/Geometry_impl.hpp: copy constructor, operator=", "src/fields2cover/types/Swath.cpp: copy constructor, operator=, reverse, moveTo, clone, setPath, getPath", "src/fields2cover/types/Swaths.cpp: emplace_back, push_back, append, sort, reverseDirOddSwaths, moveTo, clone"]}
{"id": "C192", "title": "Ordering does not touch its input", "statement": "genSortedSwaths gives the values that it would give without any sharing and leaves all other variables as they are, whatever is shared.", "quantifier": "for all states, orders and variants", "why_tests_cant": "all patterns of sharing", "anchors": ["src/fields2cover/route_planning/single_cell_swaths_order_base.cpp: genSortedSwaths, changeStartPoint", "include/fields2cover/types/Geometry_impl.hpp: copy constructor, operator=", "src/fields2cover/types/Swath.cpp: copy constructor, operator=, reverse, moveTo, clone, setPath, getPath", "src/fields2cover/types/Swaths.cpp: emplace_back, push_back, append, sort, reverseDirOddSwaths, moveTo, clone"]}
{"id": "C193", "title": "Planning in one call gives a route that drives every swath", "statement": "For a robot with a positive coverage width and (with a constant headland) at least one headland track, planCovRoute lays in every cell of the mainland the swaths of the chosen direction (for brute force: the best of the 360 whole degrees for the chosen objective) and, when these can be routed, returns a route that drives every one of them exactly once.", "quantifier": "for all fields, robots, options, objectives, orders of hash maps and thread schedules, and every tour the solver finds", "why_tests_cant": "all options and fields; composition of all stages", "anchors": ["src/fields2cover.cpp: planCovRoute", "include/fields2cover.h: Options"]}
{"id": "C194", "title": "The route planned in one call covers the field", "statement": "Every point of the bounding box of a mainland cell is within half a coverage width of a laid line, and every part of a laid line inside the cell is driven.", "quantifier": "for all fields, robots and options, given clipping that is faithful to the cells and an exact text format", "why_tests_cant": "all fields", "anchors": ["src/fields2cover.cpp: planCovRoute"]}
{"id": "C195", "title": "Planning in one call always gives a route", "statement": "planCovRoute returns a route for every robot, field and options.", "quantifier": "for all robots, fields and options", "why_tests_cant": "needs robots without width, no headland tracks, fields smaller than their headland", "anchors": ["src/fields2cover.cpp: planCovRoute"]}
{"id": "C196", "title": "Planning a field in local coordinates", "statement": "With local_crs the cells of the field are planned relative to its first border point, so that neither the reference point, the system nor a shift of the cells changes the result; it is that of the cells themselves if they start at the origin.", "quantifier": "for all fields, shifts, robots and options", "why_tests_cant": "all fields and shifts", "anchors": ["src/fields2cover.cpp: planCovRoute(Robot, Field, Options, bool), planCovPath(Robot, Field, Options, bool)"]}
{"id": "C197", "title": "Planning a field in its own system", "statement": "Without local_crs the field is planned in the UTM zone of its first border point, relative to that point, and every point of the route or path is brought back to the system of the field.", "quantifier": "for all fields in a known system, robots and options, given conversions that compose", "why_tests_cant": "all fields and systems", "anchors": ["src/fields2cover.cpp: planCovRoute(Robot, Field, Options, bool), planCovPath(Robot, Field, Options, bool)"]}
{"id": "C198", "title": "Which options matter", "statement": "The result depends on hg_alg, on hg_swaths only for a constant headland, on sg_alg, on sg_obj only for brute force, on sg_angle only for a given angle, and for paths on pp_alg; decomp_alg, decomp_angle and rp_alg have no effect.", "quantifier": "for all fields, robots and pairs of options", "why_tests_cant": "all pairs of options", "anchors": ["src/fields2cover.cpp: planCovRoute, planCovPath, getSGObjPtr, getPPTurningBasePtr", "include/fields2cover.h: Options"]}
{"id": "C199", "title": "The path planned in one call drives every swath", "statement": "planCovPath has as swath states exactly those of the swaths of the route, each driven once from end to end; the others are turns; it exists when the route does, its swaths have two points and the turns are defined.", "quantifier": "for all fields, robots, options and turn generators", "why_tests_cant": "composition of all stages", "anchors": ["src/fields2cover.cpp: planCovPath"]}
{"id": "C200", "title": "Lines of the trapezoidal decomposition", "statement": "genSplitLines draws two lines from every vertex of every ring, in order, one in the split angle and one opposite to it, each from the vertex to the first crossing with the first cell that the vertex touches, or empty without one.", "quantifier": "for all cells, split angles and crossings", "why_tests_cant": "cells of any number and shape", "anchors": ["src/fields2cover/decomposition/trapezoidal_decomp.cpp: genSplitLines, setSplitAngle", "src/fields2cover/types/Cells.cpp: createLineUntilBorder"]}
{"id": "C201", "title": "Each vertex splits its own cell", "statement": "The trapezoidal lines from a vertex of a cell end at the first crossing with this cell.", "quantifier": "for all cells and split angles", "why_tests_cant": "needs cells that share a vertex", "anchors": ["src/fields2cover/decomposition/trapezoidal_decomp.cpp: genSplitLines", "src/fields2cover/types/Cells.cpp: getCellWherePoint"]}
{"id": "C202", "title": "Lines of the boustrophedon decomposition", "statement": "genSplitLines ends, and adds for every vertex either two lines or none: from the vertex it goes over edges of the ring both ways, and two lines are added if both ways leave the edges into a line that is not an edge.", "quantifier": "for all cells, split angles and crossings that lie before the start of their ray", "why_tests_cant": "rings of any length; termination", "anchors": ["src/fields2cover/decomposition/boustrophedon_decomp.cpp: genSplitLines, isLinePartOfLinearRing"]}
{"id": "C203", "title": "Decomposition keeps the space of the cells", "statement": "decompose returns the same space as the cells, recoded into simpler cells, as documented.", "quantifier": "for all cells and both decompositions", "why_tests_cant": "all cells", "anchors": ["src/fields2cover/decomposition/decomposition_base.cpp: decompose, split, merge", "include/fields2cover/decomposition/decomposition_base.h: decompose"]}
{"id": "C204", "title": "What a decomposition returns", "statement": "decompose returns what is left of the cells without the strips of half width 1e-8 round the lines of genSplitLines; nothing is merged, and the only failure is that of growing a part.", "quantifier": "for all cells, lines and geometry libraries whose difference is that of the point sets", "why_tests_cant": "all cells and lines", "anchors": ["src/fields2cover/decomposition/decomposition_base.cpp: decompose, split, merge", "src/fields2cover/types/Cells.cpp: splitByLine"]}
{"id": "C205", "title": "Colours for drawings are evenly spaced", "statement": "linspace gives N evenly spaced numbers from the first bound to the second; color_linspace gives N colours of three components in [0, 1] from the first colour to the second.", "quantifier": "for all N >= 2, bounds and colours of bytes", "why_tests_cant": "all N", "anchors": ["src/fields2cover/utils/visualizer.cpp: linspace, color_linspace, getComponents"]}
{"id": "C206", "title": "Every drawn swath has a colour", "statement": "Swaths drawn without given colours get valid colours.", "quantifier": "for all lists of swaths", "why_tests_cant": "a single swath", "anchors": ["src/fields2cover/utils/visualizer.cpp: plot(Swaths), color_linspace, linspace"]}
{"id": "C207", "title": "All swaths are drawn", "statement": "Every swath is drawn once, in order, as the curve of its line and an arrow along its last segment, in its colour; fewer colours than swaths is undefined behaviour; swaths by cells are drawn as the list of all of them, and a route as its line followed by its swaths.", "quantifier": "for all swaths, swaths by cells and routes, and all colours", "why_tests_cant": "containers of any shape", "anchors": ["src/fields2cover/utils/visualizer.cpp: plot(Swath), plot(Swaths), plot(SwathsByCells), plot(Route)"]}
{"id": "C208", "title": "Groups are drawn in the colours given", "statement": "Several sets of swaths, and several routes, are drawn in the colours given.", "quantifier": "for all sets and colours", "why_tests_cant": "any colours", "anchors": ["src/fields2cover/utils/visualizer.cpp: plot(vector<SwathsByCells>), plot(vector<Route>)"]}
{"id": "C209", "title": "All states of a path are drawn", "statement": "A path of two or more states is drawn as curves that go once through the start and the end of every state in order, each curve ending at the first state of another kind; fewer colours than curves is undefined behaviour.", "quantifier": "for all paths and colours", "why_tests_cant": "paths of any length and any kinds", "anchors": ["src/fields2cover/utils/visualizer.cpp: plot(Path)"]}
{"id": "C210", "title": "Each section of a path is a curve", "statement": "The curves of a drawn path are the maximal runs of states of the same type and direction.", "quantifier": "for all paths", "why_tests_cant": "needs paths that change their kind", "anchors": ["src/fields2cover/utils/visualizer.cpp: plot(Path)"]}
{"id": "C211", "title": "Colours of points", "statement": "A point is drawn in the colour given, like a line.", "quantifier": "for all points and colours", "why_tests_cant": "needs colours with other than three components", "anchors": ["src/fields2cover/utils/visualizer.cpp: plot(double, double), plot(Point)"]}
{"id": "C212", "title": "All lines, cells and fields are drawn", "statement": "Every line and every ring of every cell is drawn once, in order, in the colour given; nothing is drawn when there is no point.", "quantifier": "for all lines, cells and fields", "why_tests_cant": "collections of any shape", "anchors": ["src/fields2cover/utils/visualizer.cpp: plot(LineString), plot(MultiLineString), plot(LinearRing), plot(Cell), plot(Cells), plot(Field)"]}
{"id": "C213", "title": "Filled cells", "statement": "plotFilled of cells fills the border of every cell in the colour of the polygon and then its holes in that of the holes (white if only one colour is given).", "quantifier": "for all cells and colours", "why_tests_cant": "cells with any number of holes", "anchors": ["src/fields2cover/utils/visualizer.cpp: plotFilled(Cells), plotFilled(Cell), plotFilled(LinearRing)"]}
{"id": "C214", "title": "plotFilled fills every area it is given and no other", "statement": "plotFilled fills the cells of a field, and leaves the holes of a cell free.", "quantifier": "for all fields and cells", "why_tests_cant": "needs looking at the picture", "anchors": ["src/fields2cover/utils/visualizer.cpp: plotFilled(Field), plotFilled(Cell, color)"]}
{"id": "C215", "title": "Lines are taken from any geometry", "statement": "MultiLineString::append adds all lines, and all rings of polygons, of the geometry given.", "quantifier": "for all geometries", "why_tests_cant": "needs a collection", "anchors": ["src/fields2cover/types/MultiLineString.cpp: append, constructor"]}
{"id": "C216", "title": "Lines are taken from a geometry that is no collection", "statement": "append adds the line, lines or rings of the geometry given, except a single empty line, and keeps what was there.", "quantifier": "for all points, lines, polygons and multiples of them", "why_tests_cant": "all geometries", "anchors": ["src/fields2cover/types/MultiLineString.cpp: append, constructor"]}
{"id": "C217", "title": "Swaths are made wherever a line goes through the cell", "statement": "If a laid line goes through the cell for some length, a swath is made for it.", "quantifier": "for all cells, given that GDAL returns exactly what the lines and the cell have in common", "why_tests_cant": "needs a cell with a corner just at the height of a line", "anchors": ["src/fields2cover/swath_generator/swath_generator_base.cpp: generateSwaths", "src/fields2cover/types/Swaths.cpp: append", "src/fields2cover/types/Cell.cpp: getLinesInside", "src/fields2cover/types/MultiLineString.cpp: append", "include/fields2cover/types/MultiLineString.h: intersection"]}
{"id": "C218", "title": "Lines in a cell", "statement": "If GDAL returns what the lines and the cell have in common as lines only or points only, getLinesInside returns pieces within the lines and the cell, and every point where a stretch of a line in the cell begins is on a piece.", "quantifier": "for all cells and lines", "why_tests_cant": "all cells", "anchors": ["src/fields2cover/types/Cell.cpp: getLinesInside", "src/fields2cover/types/MultiLineString.cpp: append", "include/fields2cover/types/MultiLineString.h: intersection"]}
{"id": "C219", "title": "A line until the border ends at the border", "statement": "createLineUntilBorder of a point within the cell reaches the border.", "quantifier": "for all cells, points and angles, given that GDAL returns exactly what the ray and the cell have in common", "why_tests_cant": "needs a ray that touches the cell again", "anchors": ["src/fields2cover/types/Cell.cpp: createLineUntilBorder", "src/fields2cover/types/MultiLineString.cpp: append"]}
{"id": "C220", "title": "Cells are taken from any geometry", "statement": "Cells made of a geometry are all polygons in it.", "quantifier": "for all geometries", "why_tests_cant": "needs nested collections", "anchors": ["src/fields2cover/types/Cells.cpp: Cells(const OGRGeometry*)"]}
{"id": "C221", "title": "Cells and cell of a geometry", "statement": "Cells made of a geometry are its polygons if no member of a collection is itself multiple; a cell is made of a polygon and of nothing else (invalid_argument).", "quantifier": "for all geometries", "why_tests_cant": "all geometries", "anchors": ["src/fields2cover/types/Cells.cpp: Cells(const OGRGeometry*)", "src/fields2cover/types/Cell.cpp: Cell(const OGRGeometry*), buffer, convexHull"]}
{"id": "C222", "title": "The band round a ring", "statement": "buffer of a ring is the part of the grown cell that is not in the shrunk cell, if these are single polygons; it throws invalid_argument if the ring shrinks to anything else.", "quantifier": "for all rings and widths, given a correct difference", "why_tests_cant": "all rings", "anchors": ["src/fields2cover/types/Cell.cpp: buffer(LinearRing)"]}
{"id": "C223", "title": "Segments of a line", "statement": "getLineSegments of a line or ring gives the successive pairs of its points, one fewer than it has points.", "quantifier": "for all non-empty lines", "why_tests_cant": "lines of any length", "anchors": ["src/fields2cover/types/MultiLineString.cpp: getLineSegments"]}
{"id": "C224", "title": "Segments of any line", "statement": "getLineSegments of an empty line is empty.", "quantifier": "for the empty line", "why_tests_cant": "not tested", "anchors": ["src/fields2cover/types/MultiLineString.cpp: getLineSegments"]}
{"id": "C225", "title": "Parts by number", "statement": "at and operator[] give the part asked for and throw out_of_range for every other int, negative ones included; back gives the last part; startAngle and endAngle are the angles of the first and the last segment and throw for fewer than two points.", "quantifier": "for all collections with a non-empty part and all ints", "why_tests_cant": "all ints", "anchors": ["include/fields2cover/types/Geometries_impl.hpp: operator[], at, back", "src/fields2cover/types/LineString.cpp: startAngle, endAngle, endPoint"]}
{"id": "C226", "title": "Rings of cells", "statement": "getCellBorder is the first ring of the cell asked for and getInteriorRing the hole asked for, undefined behaviour if there is none; addRing appends a ring to the cell asked for and changes nothing else; adding lines appends them.", "quantifier": "for all cells and indices", "why_tests_cant": "all indices", "anchors": ["src/fields2cover/types/Cells.cpp: addRing, getCellBorder, getInteriorRing", "src/fields2cover/types/Cell.cpp: getInteriorRing", "src/fields2cover/types/MultiLineString.cpp: addGeometry(MultiLineString)"]}
{"id": "C227", "title": "Rings of cells are closed", "statement": "Cells::addRing closes the ring as Cell::addRing does.", "quantifier": "for all rings", "why_tests_cant": "needs an open ring", "anchors": ["src/fields2cover/types/Cells.cpp: addRing"]}
{"id": "C228", "title": "The common part of cells", "statement": "The intersection of cells has only points common to both and all of their common area; stray points and lines are dropped; getCellsInside is the same.", "quantifier": "for all cells, given that GDAL returns exactly the common points when it returns something", "why_tests_cant": "all polygons", "anchors": ["src/fields2cover/types/Cells.cpp: intersection, getCellsInside, Cells(const OGRGeometry*)"]}
{"id": "C229", "title": "Cells without others", "statement": "The difference of cells has no point within the others, and all the rest of the area; common part and difference together reach every point inside the cells.", "quantifier": "for all cells, given a correct difference and intersection", "why_tests_cant": "all polygons", "anchors": ["src/fields2cover/types/Cells.cpp: difference, intersection, Cells(const OGRGeometry*)"]}
{"id": "C230", "title": "Cells joined", "statement": "The union of cells with cells or a cell, and of cells among themselves, has exactly the points of its parts, but for stray points and lines.", "quantifier": "for all cells, given a correct union", "why_tests_cant": "all polygons", "anchors": ["src/fields2cover/types/Cells.cpp: unionOp, unionCascaded, Cells(const OGRGeometry*)"]}
{"id": "C231", "title": "Lines in cells", "statement": "If the common part of lines and cells is only lines or only points, getLinesInside returns pieces within both, and every point where a stretch of a line within the cells begins is on a piece.", "quantifier": "for all cells and lines, given a correct intersection", "why_tests_cant": "all cells", "anchors": ["src/fields2cover/types/Cells.cpp: getLinesInside", "include/fields2cover/types/MultiLineString.h: intersection"]}
{"id": "C232", "title": "Growing lines, points and cells", "statement": "buffer of cells returns all polygons of the result; buffer of a line or point and the convex hull return the polygon, and throw invalid_argument if the result is anything else.", "quantifier": "for all cells, lines, points and widths", "why_tests_cant": "all geometries", "anchors": ["src/fields2cover/types/Cells.cpp: buffer, convexHull", "src/fields2cover/types/Cell.cpp: buffer"]}
{"id": "C233", "title": "Set operations never fail silently", "statement": "A set operation on cells that the geometry library refuses is reported.", "quantifier": "for all cells", "why_tests_cant": "needs invalid polygons", "anchors": ["src/fields2cover/types/Cells.cpp: intersection, difference, unionOp, unionCascaded, convexHull, buffer", "include/fields2cover/types/Geometry_impl.hpp: destroyResGeom"]}
{"id": "C234", "title": "Intersections in UTM coordinates", "statement": "intersectionOfLines returns, up to the tolerance of operator==, the point where two lines cross, in double precision.", "quantifier": "for all lines that cross at a right angle", "why_tests_cant": "needs large coordinates", "anchors": ["src/fields2cover/types/Point.cpp: intersectionOfLines, operator=="]}
{"id": "C235", "title": "A full turn is divided evenly", "statement": "With a step of a full turn divided by n, the brute force search tries n directions.", "quantifier": "for all n >= 1, in double precision", "why_tests_cant": "rounding differs between values of n", "anchors": ["src/fields2cover/swath_generator/brute_force.cpp: computeBestAngle"]}
{"id": "C236", "title": "Turns of every planner", "statement": "createTurn of each of the four planners makes a turn from the start to the end with the headings asked for: steps of at most the discretization, heading changes of at most the robot's maximum curvature times the discretization, each state leading to the next one up to curvature times discretization squared, all with the turning speed, and forward for Dubins' curves.", "quantifier": "for all planners, robots, places, headings and curves the library may return that are right for the request", "why_tests_cant": "all turns", "anchors": ["src/fields2cover/path_planning/dubins_curves.cpp: createSimpleTurn", "src/fields2cover/path_planning/dubins_curves_cc.cpp: createSimpleTurn", "src/fields2cover/path_planning/reeds_shepp_curves.cpp: createSimpleTurn", "src/fields2cover/path_planning/reeds_shepp_curves_hc.cpp: createSimpleTurn", "src/fields2cover/path_planning/turning_base.cpp: createTurn", "include/fields2cover/path_planning/steer_to_path.hpp: steerStatesToPath"]}
{"id": "C237", "title": "The states of a turn join", "statement": "Each state of a turn ends exactly where the next one starts.", "quantifier": "for all turns", "why_tests_cant": "tests check it up to a tolerance", "anchors": ["include/fields2cover/path_planning/steer_to_path.hpp: steerStatesToPath", "src/fields2cover/path_planning/turning_base.cpp: createTurn"]}
{"id": "C238", "title": "Turns with given curvatures", "statement": "createConstrainedTurn returns a turn between the two poses, within the robot's limits, in the coordinates given.", "quantifier": "for all poses, curvatures and curves the library may return that are right for the request", "why_tests_cant": "not tested at all", "anchors": ["src/fields2cover/path_planning/dubins_curves_cc.cpp: createConstrainedTurn"]}
{"id": "C239", "title": "Loops are avoided when possible", "statement": "The continuous-curvature planner uses the first of at most 22 ever lower limits of curvature and sharpness, starting with the robot's, for which the curve makes no loop, and the last ones if there is none; createConstrainedTurn only if asked to.", "quantifier": "for all robots, turns and curves the library may return", "why_tests_cant": "needs turns with loops", "anchors": ["src/fields2cover/path_planning/dubins_curves_cc.cpp: createSimpleTurn, createConstrainedTurn", "include/fields2cover/path_planning/steer_to_path.hpp: loop_detected"]}
{"id": "C240", "title": "A planned path drives its swaths forward at cruise velocity", "statement": "The path planned in one call with any of the four turn planners drives the swaths of the planned route, in its order; every state of a swath has direction forward and the cruise velocity, and every other state is of a turn, has the turning velocity (the cruise velocity if none is set), and goes forward unless the planner is one of the two Reeds-Shepp planners.", "quantifier": "for all robots, fields, options, and curves the steering library may return", "why_tests_cant": "every state of every path", "anchors": ["src/fields2cover.cpp: planCovPath, getPPTurningBasePtr", "src/fields2cover/path_planning/path_planning.cpp: planPath", "include/fields2cover/path_planning/steer_to_path.hpp: steerStatesToPath"]}
{"id": "C242", "title": "All routes between two points", "statement": "On a graph whose edges go both ways, Graph2D::allPathsBetween returns every route without repeated points between two inserted points, each exactly once, as the inserted points; it throws out_of_range when one of the points was never inserted.", "quantifier": "for all edges inserted and all points", "why_tests_cant": "all graphs", "anchors": ["src/fields2cover/types/Graph2D.cpp: allPathsBetween", "src/fields2cover/types/Graph.cpp: allPathsBetween"]}
{"id": "C243", "title": "Signed distance to a line", "statement": "For two different points of the same height, signedDistance2Segment is the distance in the plane to the infinite line through them, positive exactly to the left; exchanging the points changes the sign.", "quantifier": "for all points", "why_tests_cant": "all points", "anchors": ["src/fields2cover/types/Point.cpp: signedDistance2Segment"]}
{"id": "C244", "title": "Signed distance with heights", "statement": "signedDistance2Segment is the distance to the line through the two points, in the plane or in space, also when their heights differ.", "quantifier": "for all points", "why_tests_cant": "tests use points without height", "anchors": ["src/fields2cover/types/Point.cpp: signedDistance2Segment"]}
{"id": "C245", "title": "Strips are brought back like swaths", "statement": "transformToPrevCRS for strips takes the points, relative to the field's reference point, to the earlier coordinate system as it does for swaths, routes and paths.", "quantifier": "for all fields and strips", "why_tests_cant": "tests only use reference points near the origin", "anchors": ["src/fields2cover/utils/transformation.cpp: transformToPrevCRS"]}
{"id": "C246", "title": "Turns without the cache", "statement": "The cache is used from the beginning and after each setUsingCache(true) until setUsingCache(false). While it is off, createTurn returns the generator's own turn for this very request whatever was asked before, changes nothing, and planners of the same discretization agree.", "quantifier": "for all histories of calls", "why_tests_cant": "all histories", "anchors": ["src/fields2cover/path_planning/turning_base.cpp: createTurn, setUsingCache"]}
{"id": "C247", "title": "Costs between swaths and poses", "statement": "Costs from a swath start at its last point with the heading of its last segment; costs to a swath end at its first point with the heading of its first segment; for swaths with one point the calls throw out_of_range. Between swaths and the points of a connection, costs go from the end of the last swath to the first point and from the last point to the start of the first swath; without points they are 0, without swaths arriving is undefined.", "quantifier": "for all swaths, poses and cost functions", "why_tests_cant": "not tested", "anchors": ["src/fields2cover/objectives/rp_obj/rp_objective.cpp: computeCost"]}
{"id": "C248", "title": "Swath objectives given one cell", "statement": "Given a cell and swaths by cells, number and total length are those of all swaths, and every objective gives what it gives for the collection holding just that cell.", "quantifier": "for all cells and swaths", "why_tests_cant": "all sizes", "anchors": ["src/fields2cover/objectives/sg_obj/sg_objective.cpp: computeCost"]}
{"id": "C249", "title": "Moving collections of lines", "statement": "Adding or subtracting a point to a MultiLineString, or rotating it, maps every line point by point, in order, if some line has a point; a collection of only empty lines becomes empty.", "quantifier": "for all collections of lines and all maps", "why_tests_cant": "all sizes", "anchors": ["include/fields2cover/types/Point.h: operator+, operator-, rotateFromPoint"]}
{"id": "C250", "title": "Overloads of planning", "statement": "Planning for a cell is planning for the collection of that cell; planning a field without options is planning with three headland swaths of constant width, brute force with the estimated number of swaths and Dubins turns, whatever the other options.", "quantifier": "for all robots, cells, fields and options", "why_tests_cant": "all options", "anchors": ["src/fields2cover.cpp: planCovRoute, planCovPath"]}
{"id": "C241", "title": "Connections follow the borders by the shortest way", "statement": "On the conditions of C91, the graph genRoute builds has only points of base edges, edges that are segments of base edges and distances for costs; the planned route has one group per swath, its first connection leads from the start/end point to the first swath, each further one from the end of a swath to the start of the next, the last one back to the start/end point, and each is a cheapest way along that graph.", "quantifier": "for all fields, swaths, start/end points, orders of enumeration and round tours of the solver", "why_tests_cant": "all routes through all graphs", "anchors": ["src/fields2cover/route_planning/route_planner_base.cpp: genRoute, transformSolutionToRoute", "src/fields2cover/types/Route.cpp: addSwath, addConnection"]}
{"id": "C251", "title": "There is a path", "statement": "On the conditions of C193, if the solver finds a round tour when there is one, the curves of the chosen turn planner have at most ten million samples at most a metre apart that are not all at one place, and the field is at most 1400 km wide, planCovPath returns a path; it drives every swath of the field exactly once, forwards or backwards, whichever of the four turn planners is chosen.", "quantifier": "for all robots, fields, options and libraries that satisfy the conditions", "why_tests_cant": "all fields and curve libraries", "anchors": ["src/fields2cover.cpp: planCovPath", "src/fields2cover/path_planning/path_planning.cpp: planPath", "src/fields2cover/path_planning/turning_base.cpp: createTurn"]}
{"id": "C252", "title": "Points, states and fields can be exchanged", "statement": "std::swap exchanges two points, two states of a path or two fields, and std::reverse reverses a vector of points or the states of a path.", "quantifier": "for all points, states, fields and vectors of them", "why_tests_cant": "all objects and lengths; the tests never exchange points", "anchors": ["src/fields2cover/types/Point.cpp: Point(Point&&), operator=", "src/fields2cover/types/Field.cpp: Field(Field&&), operator=", "include/fields2cover/types/PathState.h: PathState"]}
{"id": "C253", "title": "Lines, cells and swaths can be exchanged", "statement": "std::swap exchanges two lines, rings, collections or swaths, and std::reverse (as Swaths::reverse and SwathsByCells::reverse use it) reverses vectors of them; two points are exchanged by a copy and two assignments.", "quantifier": "for all objects and vectors of them", "why_tests_cant": "all lengths", "anchors": ["src/fields2cover/types/Swath.cpp: Swath(const Swath&), operator=", "src/fields2cover/types/Swaths.cpp: reverse", "include/fields2cover/types/Geometry_impl.hpp: operator=", "src/fields2cover/types/Point.cpp: operator="]}
{"id": "C254", "title": "Turning swaths", "statement": "targetSameDirAs and targetOppositeDirAs leave a swath alone when its flag is right and reverse it otherwise; number, width and type are kept. Reversing exchanges first and last point, and twice gives the swath back.", "quantifier": "for all swaths", "why_tests_cant": "all swaths", "anchors": ["src/fields2cover/types/Swath.cpp: targetSameDirAs, targetOppositeDirAs, hasSameDir, reverse"]}
{"id": "C255", "title": "What moving and assigning leave behind", "statement": "Writing a coordinate of a point changes this one only. Moving a point, a state or a field gives the new object every member and leaves no point and no geometry behind; assigning gives the target every member, keeps the point of the source, and takes the geometry from it. On a moved-from point every access is undefined.", "quantifier": "for all objects and number types", "why_tests_cant": "all objects", "anchors": ["src/fields2cover/types/Point.cpp: Point(Point&&), operator=, setX, setY, setZ", "src/fields2cover/types/Field.cpp: Field(Field&&), operator=", "include/fields2cover/types/PathState.h: PathState", "include/fields2cover/types/Geometry_impl.hpp: operator="]}
{"id": "C256", "title": "A cheapest tour gives a cheapest route", "statement": "On the conditions of C91, when the solver returns a cheapest round tour of the coverage graph, the connections of the planned route cost altogether at most what any connections along the graph of the borders cost, for any order of the swaths, driven in any directions when redirecting is allowed and forwards otherwise.", "quantifier": "for all fields, swaths, start/end points, orders of enumeration and cheapest tours", "why_tests_cant": "all orders of the swaths and all ways between them", "anchors": ["src/fields2cover/route_planning/route_planner_base.cpp: genRoute, createCoverageGraph, transformSolutionToRoute", "src/fields2cover/types/Graph.cpp: shortestPath"]}
{"id": "C257", "title": "A cheapest tour gives a shortest route, up to rounding", "statement": "On the conditions of C256, when costs are distances in thousandths, rounded down, the connections of the planned route are altogether at most one thousandth per piece longer than any connections along the graph of the borders for any order of the swaths.", "quantifier": "for all fields, swaths, start/end points, distances and cheapest tours", "why_tests_cant": "all orders of the swaths and all ways between them", "anchors": ["src/fields2cover/route_planning/route_planner_base.cpp: genRoute", "src/fields2cover/types/Graph2D.cpp: addEdge"]}
{"id": "C258", "title": "Cost of a turn", "statement": "The cost between two poses is the length of the turn the planner generates (or has stored) for the normal form of the request, 0 when it has fewer than two states. Moving both poses by a translation, a rotation, or a reflection if the start heading does not point along the line, changes neither the cost nor what is stored.", "quantifier": "for all planners, objectives, poses and motions", "why_tests_cant": "all poses; the tests check a few poses roughly", "anchors": ["include/fields2cover/objectives/rp_obj/complete_turn_path_obj.h: computeCost", "src/fields2cover/path_planning/turning_base.cpp: createTurn, transformToNormalTurn"]}
{"id": "C259", "title": "Costs of turns hardly depend on earlier requests", "statement": "When the length of the generator's turns changes by at most L per metre and radian, every cost of an objective that is only asked for costs is within 3L/1000 of the length of the turn generated for this request.", "quantifier": "for all planners, histories of requests and poses", "why_tests_cant": "all histories", "anchors": ["include/fields2cover/objectives/rp_obj/complete_turn_path_obj.h: computeCost", "src/fields2cover/path_planning/turning_base.cpp: createTurnIfNotCached"]}
{"id": "C260", "title": "Cost of a route with its turns", "statement": "With the cache off, computing costs does not change the objective, and the cost of a route built by any calls is its length, less the jumps between groups without connection points, plus what the turns between consecutive swaths of a group cost more than straight lines.", "quantifier": "for all planners, routes and sequences of building calls", "why_tests_cant": "all routes", "anchors": ["include/fields2cover/objectives/rp_obj/complete_turn_path_obj.h: computeCost", "src/fields2cover/objectives/rp_obj/rp_objective.cpp: computeCost"]}
{"id": "C261", "title": "Costs are those of the robot that was set", "statement": "After setRobot, computeCost gives costs for that robot, and the turns respect its minimum turning radius.", "quantifier": "for all robots and histories of calls", "why_tests_cant": "tests never change the robot of an objective or planner", "anchors": ["include/fields2cover/objectives/rp_obj/complete_turn_path_obj.h: setRobot, computeCost", "src/fields2cover/path_planning/turning_base.cpp: createTurnIfNotCached"]}
{"id": "C262", "title": "Length of a route", "statement": "The length of a route built by any calls is that of the line it describes: at least the lengths of all its swaths and connections together, at least the distance between any two of its points, and 0 when the route is empty.", "quantifier": "for all routes and sequences of building calls", "why_tests_cant": "all routes; the tests check the length of a few", "anchors": ["src/fields2cover/types/Route.cpp: length, asLineString", "src/fields2cover/types/LineString.cpp: length"]}
{"id": "C263", "title": "Headland objective", "statement": "The headland objective is the share of the field that remains, a number between 0 and 1, for each combination of a cell and several cells, and the field with the larger rest is preferred.", "quantifier": "for all fields with an area and all rests", "why_tests_cant": "the tests check a few rectangles", "anchors": ["src/fields2cover/objectives/hg_obj/hg_objective.cpp: computeCost", "src/fields2cover/objectives/hg_obj/rem_area.cpp: isMinimizing", "include/fields2cover/objectives/base_objective.h: computeCostWithMinimizingSign"]}
{"id": "C264", "title": "Headland objective of every field", "statement": "The headland objective is a number between 0 and 1 for every field.", "quantifier": "for all fields", "why_tests_cant": "tests have no field without area", "anchors": ["src/fields2cover/objectives/hg_obj/hg_objective.cpp: computeCost"]}
{"id": "C265", "title": "Parts taken by value are safe", "statement": "A program that takes parts out of collections with getGeometry(i) only never uses a part or a collection that was destroyed, whatever it copies, changes, replaces and releases.", "quantifier": "for all sequences of calls on any number of variables", "why_tests_cant": "all sequences of calls; an access to a destroyed object may go unnoticed", "anchors": ["src/fields2cover/types/Cells.cpp: getGeometry, setGeometry, addGeometry", "src/fields2cover/types/MultiLineString.cpp: getGeometry, setGeometry, addGeometry", "src/fields2cover/types/Cell.cpp: getGeometry, setGeometry, addGeometry", "include/fields2cover/types/Geometry_impl.hpp: Geometry"]}
{"id": "C266", "title": "Handles to parts", "statement": "A handle made by getGeometry(i, part) or an iterator is the i-th part of its collection: what is changed through one is seen through the other, as long as some variable has the collection, and using it later is undefined.", "quantifier": "for all sequences of calls that do not assign to the handle or read text into a collection", "why_tests_cant": "all sequences of calls; the tests never keep a handle", "anchors": ["src/fields2cover/types/Cells.cpp: getGeometry, setGeometry, addGeometry", "src/fields2cover/types/MultiLineString.cpp: getGeometry, setGeometry, addGeometry", "src/fields2cover/types/Cell.cpp: getGeometry, setGeometry, addGeometry", "include/fields2cover/types/Geometry_impl.hpp: Geometry"]}
{"id": "C267", "title": "The cell where a point is can be kept", "statement": "A part got from getCellWherePoint, getGeometry(i, part) or an iterator can be used as long as its variable exists.", "quantifier": "for all sequences of calls", "why_tests_cant": "the tests use the result at once, while the field still exists", "anchors": ["src/fields2cover/types/Cells.cpp: getCellWherePoint", "src/fields2cover/types/Cells.cpp: getGeometry, setGeometry, addGeometry", "src/fields2cover/types/MultiLineString.cpp: getGeometry, setGeometry, addGeometry", "src/fields2cover/types/Cell.cpp: getGeometry, setGeometry, addGeometry", "include/fields2cover/types/Geometry_impl.hpp: Geometry"]}
{"id": "C268", "title": "Parts taken by value keep their value", "statement": "A part taken with getGeometry(i) has the value of the i-th part at that time until it is itself changed, directly or through a copy, whatever is done to the collection and to other parts.", "quantifier": "for all sequences of calls", "why_tests_cant": "all sequences of calls", "anchors": ["src/fields2cover/types/Cells.cpp: getGeometry, setGeometry, addGeometry", "src/fields2cover/types/MultiLineString.cpp: getGeometry, setGeometry, addGeometry", "src/fields2cover/types/Cell.cpp: getGeometry, setGeometry, addGeometry", "include/fields2cover/types/Geometry_impl.hpp: Geometry"]}
{"id": "C269", "title": "Collections behave as values when nothing is shared", "statement": "A program that copies by clone() and getGeometry(i) only has the outcome it would have if each variable held its own list of parts: same exceptions, same parts.", "quantifier": "for all sequences of calls on any number of variables", "why_tests_cant": "all sequences of calls", "anchors": ["src/fields2cover/types/Cells.cpp: getGeometry, setGeometry, addGeometry", "src/fields2cover/types/MultiLineString.cpp: getGeometry, setGeometry, addGeometry", "src/fields2cover/types/Cell.cpp: getGeometry, setGeometry, addGeometry", "include/fields2cover/types/Geometry_impl.hpp: Geometry"]}
{"id": "C270", "title": "Copies of collections are independent", "statement": "Changing a collection does not change a copy of it.", "quantifier": "for all collections and changes", "why_tests_cant": "the tests do not change copied collections", "anchors": ["src/fields2cover/types/Cells.cpp: getGeometry, setGeometry, addGeometry", "src/fields2cover/types/MultiLineString.cpp: getGeometry, setGeometry, addGeometry", "src/fields2cover/types/Cell.cpp: getGeometry, setGeometry, addGeometry", "include/fields2cover/types/Geometry_impl.hpp: Geometry"]}
{"id": "C271", "title": "The best swaths are the best", "statement": "generateBestSwaths gives the swaths that generateSwaths makes, with the same overlap setting, at the first angle of the grid i * step whose swaths cost least (whose angle costs least, for an objective with a cost of angles); over several cells, the best swaths of each cell.", "quantifier": "for all objectives, steps in (0, 2 pi], overlap settings, widths above 0, cells with a point and schedules of the parallel loop", "why_tests_cant": "the tests compare a few objectives on rectangles, without overlap", "anchors": ["src/fields2cover/swath_generator/swath_generator_base.cpp: generateBestSwaths, computeCostOfAngle", "src/fields2cover/swath_generator/brute_force.cpp: computeBestAngle, setStepAngle"]}
{"id": "C272", "title": "Setters of a field", "statement": "After any sequence of setter calls every member of a field is what was last given for it; only setRefPoint and setField change the absolute positions of the cells.", "quantifier": "for all sequences of setter calls", "why_tests_cant": "all sequences of calls", "anchors": ["src/fields2cover/types/Field.cpp: setId, setCRS, setPrevCRS, setRefPoint, setField, setEPSGCoordSystem"]}
{"id": "C273", "title": "Shortest paths are shortest in distance", "statement": "For a graph whose edges were added by distance, no route between two points along its edges is shorter than the path that shortestPath returns.", "quantifier": "for all graphs over points", "why_tests_cant": "costs are cut to whole millimetres; needs routes of nearly the same length", "anchors": ["src/fields2cover/types/Graph2D.cpp: addEdge, shortestPath", "include/fields2cover/types/Graph2D.h: scale_"]}
{"id": "C274", "title": "Random convex cells are convex", "statement": "genConvexCell returns a convex cell: its border turns to the same side at every vertex.", "quantifier": "for all draws, areas and numbers of sides", "why_tests_cant": "all seeds; a dart with the notch at its first point is drawn rarely", "anchors": ["src/fields2cover/utils/random.cpp: genConvexCell, generateRandCell", "src/fields2cover/types/Cell.cpp: isConvex"]}
{"id": "C275", "title": "Random triangles", "statement": "A triangle with an area passes the convexity test, so genConvexCell with three sides returns the first triangle drawn unless it has no area after scaling.", "quantifier": "for all draws and areas", "why_tests_cant": "all seeds", "anchors": ["src/fields2cover/utils/random.cpp: genConvexCell, generateRandCell", "src/fields2cover/types/Cell.cpp: isConvex"]}
{"id": "C276", "title": "How large INF may be", "statement": "Shortest paths on dense graphs with costs in [0, INF) are computed without int64 overflow whenever INF is at most 2^62. The bound is sharp: for every larger INF a graph of one undirected edge of cost 2^62, below INF, makes every shortest path query add two costs whose sum is no int64_t (undefined behaviour).", "quantifier": "for every INF an int64_t can hold and every graph with dense ids", "why_tests_cant": "INF is any 64-bit number and tests use the default 1e15", "anchors": ["src/fields2cover/types/Graph.cpp: initializeMatrices (132-133)", "include/fields2cover/types/Graph.h: shortestPath, shortestPathCost"]}
{"id": "C277", "title": "Fields behave as values as long as no cells are changed in place", "statement": "Fields and cells may be copied, cloned, constructed, set, read and transformed in any order (setField, getField, setters, Transform::transform, transformToUTM, transformToPrevCRS, with exceptions caught): every variable shows what it would show if it had cells of its own, and the same exceptions are thrown, although copies share one OGR object. Transform changes an object in place, but only one it has just made.", "quantifier": "for every program of such statements, any number of variables, any coordinate transformation", "why_tests_cant": "sharing shows only in particular sequences of copies and changes; there are infinitely many", "anchors": ["src/fields2cover/types/Field.cpp: Field, operator=, setField, getField, clone", "src/fields2cover/utils/transformation.cpp: transform, transformToUTM, transformToPrevCRS"]}
{"id": "C278", "title": "Changing cells that nothing else points to is safe", "statement": "A program that also changes cells in place (addGeometry, operator->, through getField() or through a Cells variable) still shows plain values, if each change happens while exactly one variable points to the object.", "quantifier": "for every program that is careful in this sense", "why_tests_cant": "whether an object is shared depends on the whole history of copies", "anchors": ["src/fields2cover/types/Field.cpp: getField (64-66), setField (72-74)", "include/fields2cover/types/Geometry_impl.hpp: operator-> (64-66)"]}
{"id": "C279", "title": "What changing shared cells does", "statement": "A change in place of the cells of a field or of a Cells variable is seen by exactly the variables that point to the same object; all others show what they showed, and no text, reference point or pointer changes.", "quantifier": "for every state, variable and change", "why_tests_cant": "needs all ways in which variables can share", "anchors": ["src/fields2cover/types/Field.cpp: getField (64-66)", "include/fields2cover/types/Geometry_impl.hpp: operator-> (64-66)"]}
{"id": "C280", "title": "New fields share nothing, and what shares nothing stays apart", "statement": "A field made by the constructor, by clone() or by transforming a field that has cells (also if that throws) shares its cells with no other variable. If a group of variables shares nothing with the others, then after any program that names only variables of the group, the others show what they showed, and the groups are still apart. For a field without cells transforming does not separate: it still shares its object with its copies.", "quantifier": "for every state, group of variables and program", "why_tests_cant": "a statement about all later programs", "anchors": ["src/fields2cover/types/Field.cpp: Field (13-18), clone (76-80)", "src/fields2cover/utils/transformation.cpp: transform (20-33)"]}
{"id": "C281", "title": "A copy of a field is a field of its own", "statement": "After a field is copied, changing the cells of the copy does not change the original.", "quantifier": "for every field and change", "why_tests_cant": "a test that copies a field rarely looks at the original afterwards", "anchors": ["src/fields2cover/types/Field.cpp: Field(const Field&), operator= (21-24), getField (64-66)", "include/fields2cover/types/Geometry_impl.hpp: Geometry(const Geometry&) (51)"]}
{"id": "C282", "title": "Routes behave as values when nothing is shared", "statement": "A program that builds routes with addConnection, addSwath, addSwaths, setSwaths and clone(), and points with MultiPoint, shows in every variable what it would show if every variable held its own points, although addConnection changes shared objects in place: nothing is shared then.", "quantifier": "for every program of such statements and any number of variables", "why_tests_cant": "all sequences of calls", "anchors": ["src/fields2cover/types/Route.cpp: addConnection, addSwath, addSwaths, setSwaths, clone", "src/fields2cover/types/MultiPoint.cpp: addPoint"]}
{"id": "C283", "title": "Extending a shared route is safe where a new connection begins", "statement": "A program may also copy routes and points, and get and set connections. It still shows plain values if points are added in place only to objects that nothing else points to: a copy of a route may be extended after a swath was added to it, since addConnection then begins a new connection. A route may be given its own connection if the vector of connections need not move.", "quantifier": "for every program that is careful in this sense", "why_tests_cant": "whether an object is shared depends on the whole history of copies", "anchors": ["src/fields2cover/types/Route.cpp: addConnection (63-89), getConnection, setConnection", "include/fields2cover/types/Geometry_impl.hpp: operator="]}
{"id": "C284", "title": "What adding points to a shared connection does", "statement": "Points added in place, by MultiPoint::addPoint, through getConnection(i), or by addConnection on a route that ends with a connection, appear at the end of every connection and every MultiPoint that points to the object, and nowhere else; also when the points added come from that object itself, which are then doubled once.", "quantifier": "for every state, statement and place", "why_tests_cant": "needs all ways in which variables can share", "anchors": ["src/fields2cover/types/Route.cpp: addConnection (69-89), getConnection (111-113)", "src/fields2cover/types/MultiPoint.cpp: addPoint (87-101)", "include/fields2cover/types/Geometries_impl.hpp: begin, end, operator*"]}
{"id": "C285", "title": "A cloned route shares nothing, and what shares nothing stays apart", "statement": "No connection of a cloned route is an object of another variable. If a group of variables shares nothing with the others, any program that names only variables of the group leaves the others as they were, and the groups apart.", "quantifier": "for every state, group of variables and program", "why_tests_cant": "a statement about all later programs", "anchors": ["src/fields2cover/types/Route.cpp: clone (183-192)"]}
{"id": "C286", "title": "A copy of a route is a route of its own", "statement": "After a route is copied, adding a point to the copy does not change the original.", "quantifier": "for every route and point", "why_tests_cant": "a test that copies a route rarely looks at the original afterwards", "anchors": ["src/fields2cover/types/Route.cpp: addConnection (69-72)", "include/fields2cover/types/Route.h: Route (23)", "include/fields2cover/types/Geometry_impl.hpp: Geometry(const Geometry&) (51)"]}
{"id": "C287", "title": "A route can be given one of its own connections", "statement": "r.addConnection(r.getConnection(i)) adds the points of connection i, as it does with a copy of it.", "quantifier": "for every route and i", "why_tests_cant": "whether the vector moves depends on its capacity; the freed memory often still has the old content", "anchors": ["src/fields2cover/types/Route.cpp: addConnection (74-81), getLastConnection (91-97), getConnection (111-117)"]}
{"id": "C288", "title": "Convexity does not depend on the place", "statement": "Cell::isConvex gives the same answer (or the same exception) for a cell and for the cell moved by any vector, as long as the area does not change.", "quantifier": "for all cells, with or without holes, of any size and shape, and all vectors", "why_tests_cant": "infinitely many cells and vectors", "anchors": ["src/fields2cover/types/Cell.cpp: isConvex (141-162)", "src/fields2cover/types/Point.cpp: getAngleFromPoints (140-143)"]}
{"id": "C289", "title": "Random convex fields", "statement": "The field that genConvexField (genNonConvexField) returns holds exactly the cell that genConvexCell (genNonConvexCell) draws with the same generator, moved so that its border starts at the origin; its absolute position is that cell, its name is empty, and Cells::isConvex says true (false) of it.", "quantifier": "for all draws, areas and numbers of sides", "why_tests_cant": "all seeds", "anchors": ["src/fields2cover/utils/random.cpp: genConvexField (77-80), genNonConvexField (90-92)", "src/fields2cover/types/Field.cpp: Field(cells, id) (13-18), getCellsAbsPosition", "src/fields2cover/types/Cells.cpp: isConvex (139-142)"]}
{"id": "C290", "title": "The order does not depend on how the swaths are listed", "statement": "With distinct ids, genSortedSwaths gives the same answer (the same swaths in the same order with the same directions, or the same failure) for the swaths listed in any other order, and whatever std::sort does with equivalent elements.", "quantifier": "for all swaths with distinct ids, all permutations of them, all orders and variants", "why_tests_cant": "all permutations of all lists", "anchors": ["src/fields2cover/route_planning/single_cell_swaths_order_base.cpp: genSortedSwaths (12-23), changeStartPoint (25-33)", "src/fields2cover/types/Swaths.cpp: sort (127-134)", "src/fields2cover/types/Swath.cpp: operator< (42-44)"]}
{"id": "C291", "title": "The order does not depend on how the swaths are drawn", "statement": "With distinct ids and swaths whose two ends differ, genSortedSwaths gives the same answer if any of the swaths are reversed beforehand.", "quantifier": "for all swaths, all choices of swaths that are reversed, all orders and variants", "why_tests_cant": "2^n choices for n swaths", "anchors": ["src/fields2cover/route_planning/single_cell_swaths_order_base.cpp: genSortedSwaths (12-23), changeStartPoint (25-33)", "src/fields2cover/types/Swaths.cpp: sort (127-134)", "src/fields2cover/types/Swath.cpp: reverse (72-75)"]}
{"id": "C292", "title": "Ordering forgets earlier orders", "statement": "Ordering swaths that have been ordered before, by the same or another order and variant, gives the same as ordering the original swaths.", "quantifier": "for all swaths with distinct ids and different ends, all pairs of orders and variants", "why_tests_cant": "all pairs of orders on all inputs", "anchors": ["src/fields2cover/route_planning/single_cell_swaths_order_base.cpp: genSortedSwaths (12-23), changeStartPoint (25-33)", "src/fields2cover/types/Swaths.cpp: sort (127-134), reverseDirOddSwaths (136-140)"]}
{"id": "C293", "title": "The order of swaths does not depend on their listing even with equal ids", "statement": "genSortedSwaths gives the same answer for the swaths listed in any other order, also for swaths of several cells, which are numbered from 0 in each cell.", "quantifier": "for all swaths and permutations of them", "why_tests_cant": "equal ids only come up when swaths of several cells are put together", "anchors": ["src/fields2cover/route_planning/single_cell_swaths_order_base.cpp: genSortedSwaths (12-23), changeStartPoint (25-33)", "src/fields2cover/types/Swath.cpp: operator< (42-44)"]}
{"id": "C294", "title": "Swath lines move with the field", "statement": "The lines laid over a cell that was turned and shifted, at the turned angle, are the turned and shifted lines of the cell: as many, in the same order, with the same ends.", "quantifier": "for all cells with a point, angles, widths, overlap settings, turns and shifts", "why_tests_cant": "all fields and motions", "anchors": ["src/fields2cover/swath_generator/swath_generator_base.cpp: generateSwaths"]}
{"id": "C295", "title": "Swath lines scale with the field", "statement": "Scaling a cell and the operation width by the same positive factor scales the lines laid over it.", "quantifier": "for all cells with a point, angles, widths, overlap settings and factors", "why_tests_cant": "all fields and factors", "anchors": ["src/fields2cover/swath_generator/swath_generator_base.cpp: generateSwaths"]}
{"id": "C296", "title": "Swath lines of opposite angles", "statement": "At angles that differ by pi there are as many lines; they are laid from opposite borders and driven in opposite directions, and they are in the middles of the same strips if the width divides the height of the cell.", "quantifier": "for all cells, angles, positive widths and overlap settings", "why_tests_cant": "all fields and angles", "anchors": ["src/fields2cover/swath_generator/swath_generator_base.cpp: generateSwaths"]}
{"id": "C297", "title": "Swaths move with the field", "statement": "If clipping lines to the cell commutes with a motion, the swaths of the moved cell at the turned angle are the moved swaths, with the same numbers, widths, directions and types.", "quantifier": "for all cells with a point, angles, widths, overlap settings and motions", "why_tests_cant": "all fields and motions", "anchors": ["src/fields2cover/swath_generator/swath_generator_base.cpp: generateSwaths", "src/fields2cover/types/Swaths.cpp: append"]}
{"id": "C298", "title": "The best swaths move with the field", "statement": "If neither the objective nor clipping depends on the place, the best angle of a shifted cell is the same and its best swaths are the shifted ones.", "quantifier": "for all cells with a point, objectives, steps, widths and shifts", "why_tests_cant": "all fields and objectives", "anchors": ["src/fields2cover/swath_generator/brute_force.cpp: computeBestAngle", "src/fields2cover/swath_generator/swath_generator_base.cpp: generateBestSwaths"]}
{"id": "C299", "title": "Turning a field by whole steps does not change its best cost", "statement": "If the step divides the full turn and a cell is turned by a whole number of steps and shifted, the cost of its best swaths stays the same, for objectives that do not depend on place and heading.", "quantifier": "for all cells with a point, objectives computed from swaths, widths, steps 2 pi / m and whole numbers of steps", "why_tests_cant": "all fields, objectives and steps", "anchors": ["src/fields2cover/swath_generator/brute_force.cpp: computeBestAngle", "src/fields2cover/swath_generator/swath_generator_base.cpp: generateBestSwaths"]}
{"id": "C300", "title": "The estimated number of swaths moves with the field", "statement": "The modified swath count of a turned and shifted cell at the turned angle is that of the cell; it is the same at opposite angles; it is unchanged if cell and width are scaled together; refusals agree as well.", "quantifier": "for all cells, angles, widths, motions and positive factors", "why_tests_cant": "all fields and motions", "anchors": ["src/fields2cover/objectives/sg_obj/n_swath_modified.cpp: computeCost"]}
{"id": "C301", "title": "The estimated number of swaths is not too small", "statement": "For a cell whose highest and lowest point across the angle lie on one closed ring, the modified swath count is at least the height of the cell in widths, and the number of lines laid without overlap is less than the count plus one.", "quantifier": "for all cells with closed rings, angles and positive widths", "why_tests_cant": "all fields and angles", "anchors": ["src/fields2cover/objectives/sg_obj/n_swath_modified.cpp: computeCost", "src/fields2cover/swath_generator/swath_generator_base.cpp: generateSwaths"]}
{"id": "C302", "title": "The estimated number of swaths rounds up to the number of lines", "statement": "For a closed ring that rises once and falls once across the angle (as convex ones do) and whose size is one of those summed right, the modified swath count is the height in widths and the number of lines without overlap is that count rounded up.", "quantifier": "for all such rings, angles and positive widths", "why_tests_cant": "all rings and angles", "anchors": ["src/fields2cover/objectives/sg_obj/n_swath_modified.cpp: computeCost", "src/fields2cover/swath_generator/swath_generator_base.cpp: generateSwaths"]}
{"id": "C303", "title": "Half of the angles suffices for the estimate", "statement": "With the modified swath count as objective and a step that divides half a turn, the best angle is below half a turn and no multiple of the step, also beyond a full turn, has a smaller count.", "quantifier": "for all cells without empty rings, positive widths, steps pi / h and schedules", "why_tests_cant": "all fields and steps", "anchors": ["src/fields2cover/swath_generator/brute_force.cpp: computeBestAngle", "src/fields2cover/objectives/sg_obj/n_swath_modified.cpp: computeCost"]}
{"id": "C304", "title": "What driving the rows of a rectangle costs", "statement": "For the rows of a rectangle, drawn consistently, the distance objective of the swaths in the order of any strategy and variant is the length of each row once, plus the width times the number of rows passed between one row and the next.", "quantifier": "for all rectangles, numbers of rows, widths, strategies, variants and listings of the swaths", "why_tests_cant": "all numbers of rows and orders", "anchors": ["src/fields2cover/objectives/rp_obj/rp_objective.cpp: computeCost(const F2CSwaths&)", "src/fields2cover/route_planning/single_cell_swaths_order_base.cpp: genSortedSwaths"]}
{"id": "C305", "title": "Cost of the boustrophedon and the snake order", "statement": "For n rows of a rectangle, the boustrophedon order costs n lengths and n-1 widths, and the snake order n lengths and 2n-3 widths, with every variant.", "quantifier": "for all rectangles, numbers of rows, widths and variants", "why_tests_cant": "all numbers of rows", "anchors": ["src/fields2cover/route_planning/boustrophedon_order.cpp: sortSwaths", "src/fields2cover/route_planning/snake_order.cpp: sortSwaths", "src/fields2cover/objectives/rp_obj/rp_objective.cpp: computeCost(const F2CSwaths&)"]}
{"id": "C306", "title": "The boustrophedon order is cheapest on a rectangle", "statement": "No way to drive the rows of a rectangle, in whatever order and in whatever directions, has a smaller distance objective than the boustrophedon order.", "quantifier": "for all rectangles, numbers of rows, widths, and all orders and directions", "why_tests_cant": "factorially many orders and directions for every number of rows", "anchors": ["src/fields2cover/route_planning/boustrophedon_order.cpp: sortSwaths", "src/fields2cover/objectives/rp_obj/rp_objective.cpp: computeCost(const F2CSwaths&)"]}
{"id": "C307", "title": "Cost of the spiral order", "statement": "Spirals of 2h rows that fill a rectangle of n rows cost n lengths and h(n-1) widths.", "quantifier": "for all rectangles, h, multiples n of 2h, widths and variants", "why_tests_cant": "all numbers of rows and spiral sizes", "anchors": ["src/fields2cover/route_planning/spiral_order.cpp: sortSwaths", "src/fields2cover/objectives/rp_obj/rp_objective.cpp: computeCost(const F2CSwaths&)"]}
{"id": "C308", "title": "A rectangle from field to cost", "statement": "A rectangle as high as n widths gets n swaths along it; driven in boustrophedon order they cost n lengths and n-1 widths, and no other way to drive them is cheaper.", "quantifier": "for all rectangles at any angle, widths, numbers of rows, variants and all orders and directions", "why_tests_cant": "all rectangles and orders", "anchors": ["src/fields2cover/swath_generator/swath_generator_base.cpp: generateSwaths", "src/fields2cover/route_planning/single_cell_swaths_order_base.cpp: genSortedSwaths", "src/fields2cover/objectives/rp_obj/rp_objective.cpp: computeCost(const F2CSwaths&)"]}
{"id": "C309", "title": "When the snake order pays", "statement": "If the price t(k) of a turn depends only on the number k of rows passed, n rows cost n lengths and (n-1) t(1) in boustrophedon order and n lengths, (n-2) t(2) and t(1) in snake order; with three rows or more the snake order is cheaper exactly if t(2) < t(1).", "quantifier": "for all rectangles, numbers of rows, variants and prices of turns", "why_tests_cant": "all numbers of rows and prices", "anchors": ["src/fields2cover/route_planning/snake_order.cpp: sortSwaths", "src/fields2cover/route_planning/boustrophedon_order.cpp: sortSwaths", "src/fields2cover/objectives/rp_obj/rp_objective.cpp: computeCost(const F2CSwaths&)"]}
{"id": "C310", "title": "The number of lines in double precision", "statement": "With the doubles of the machine, the loop lays without overlap the smallest number of strips of the given width that reach the height of the field, counted with the exact values of the two doubles.", "quantifier": "for all pairs of positive doubles", "why_tests_cant": "all pairs of doubles; rounding makes the count one too large or one too small for ordinary sizes such as 93 m and 3.1 m", "anchors": ["src/fields2cover/swath_generator/swath_generator_base.cpp: generateSwaths"]}
{"id": "C311", "title": "Long lines through several cells reach all of them", "statement": "From a point of the box around a set of cells, the semi-long line and both sides of the straight long line go at least as far as every point of the box, and at least as far as the line of any single cell of the set.", "quantifier": "for all sets of cells with points, points of the box and angles", "why_tests_cant": "all sets of cells and angles", "anchors": ["src/fields2cover/types/Cells.cpp: createSemiLongLine", "src/fields2cover/types/Cells.cpp: createStraightLongLine", "include/fields2cover/types/Geometry_impl.hpp: getMinSafeLength"]}
{"id": "C312", "title": "Every direction of an even division of the turn is tried", "statement": "With the m-th part of the full turn as step, computed in double precision, the angle returned is best among all m multiples of the step below the full turn.", "quantifier": "for all numbers of parts, cost functions and schedules", "why_tests_cant": "all numbers of parts; truncation of a quotient that rounds below m loses one angle, for instance for m = 25, 41, 50, 63", "anchors": ["src/fields2cover/swath_generator/brute_force.cpp: computeBestAngle"]}
{"id": "C313", "title": "The length of a path in double precision", "statement": "Path::length is the sum of the lengths of the states up to the number of states times the relative precision of a double (2^-52).", "quantifier": "for all paths of up to 2^50 states with finite lengths that add up to at most 2^999", "why_tests_cant": "rounding errors add up over paths of any number of states", "anchors": ["src/fields2cover/types/Path.cpp: length"]}
{"id": "C314", "title": "The UTM zone of a longitude in double precision", "statement": "For every longitude from -180 to 180 the zone that transformToUTM computes begins at or west of it and ends east of it.", "quantifier": "for all doubles between -180 and 180", "why_tests_cant": "the doubles next to the borders of the zones", "anchors": ["src/fields2cover/utils/transformation.cpp: transformToUTM"]}
{"id": "C315", "title": "The time a path takes is right up to rounding", "statement": "In double precision, getTaskTime() of a path with non-zero velocities differs from the sum of the quotients of length and velocity by at most 2n (2^-52 times the sum of the sizes of the quotients, plus 2^-1074) for n states.", "quantifier": "for all paths of doubles with fewer than 2^49 states", "why_tests_cant": "rounding errors of all paths", "anchors": ["src/fields2cover/types/Path.cpp:54-57"]}
{"id": "C316", "title": "Normalising an angle twice is normalising it once", "statement": "In double precision, mod_2pi(mod_2pi(a)) equals mod_2pi(a).", "quantifier": "for all doubles", "why_tests_cant": "the lost bit depends on the last bits of the angle; exact comparisons of normalised angles and cache keys rely on it", "anchors": ["include/fields2cover/types/Geometry_impl.hpp: mod, mod_2pi"]}
{"id": "C317", "title": "The difference of two angles in double precision", "statement": "getAngleDiffAbs(a, b) lies between 0 and pi, and it is, up to 2^-53 |b - a| + 2^-48, the distance from b - a to the nearest multiple of the full turn.", "quantifier": "for all doubles less than 2^999 apart", "why_tests_cant": "rounding errors of all pairs of angles", "anchors": ["include/fields2cover/types/Geometry_impl.hpp: getAngleDiffAbs, mod_2pi, mod"]}
{"id": "C318", "title": "The difference of two angles does not depend on their order", "statement": "In double precision, getAngleDiffAbs(a, b) equals getAngleDiffAbs(b, a).", "quantifier": "for all doubles", "why_tests_cant": "which pairs differ depends on their last bits; comparisons that depend on it depend on the order of the arguments", "anchors": ["include/fields2cover/types/Geometry_impl.hpp: getAngleDiffAbs"]}
{"id": "C319", "title": "Turning and stepping points in double precision", "statement": "rotateFromPoint and getPointFromAngle are off by at most 2^-53 (16 L + M) and 2^-53 (7 L + M) in each coordinate, for a centre with coordinates up to M and distances up to L, if sine and cosine are right to 2^-52.", "quantifier": "for all points, centres, angles and distances with M, L >= 1 and M + L <= 2^200", "why_tests_cant": "rounding errors of all points and angles; with UTM coordinates (M = 5 10^6) and fields of a kilometre this is below a nanometre", "anchors": ["src/fields2cover/types/Point.cpp: rotateFromPoint, getPointFromAngle"]}
{"id": "C320", "title": "The closest point of a segment in double precision", "statement": "closestPointInSegment returns a point within 2^-53 (80 K + 4 L + M), in each coordinate, of the point of the segment at least distance, when the segment starts up to K away from the point along each axis, extends L along its longest axis and starts at coordinates up to M; for a segment whose ends are one finite point it returns that point.", "quantifier": "for all points and segments of doubles with K, L >= 1 and K, L, M <= 2^200, and for all one-point segments and all points, finite or not", "why_tests_cant": "rounding errors of all points and segments, with the clamp to the ends on either side", "anchors": ["src/fields2cover/types/Point.cpp:169-175"]}
{"id": "C321", "title": "Equality of points in double precision", "statement": "operator== takes no two points for equal that differ by the tolerance (the double next to 1e-7) or more along an axis, although it compares rounded differences, and takes all for equal that differ by at most 1 - 2^-53 of it along every axis.", "quantifier": "for all points of doubles up to 2^1000 apart along each axis", "why_tests_cant": "the differences next to the tolerance, and all magnitudes of the coordinates", "anchors": ["src/fields2cover/types/Point.cpp:42-46"]}
{"id": "C322", "title": "The order of points in double precision is a strict weak order", "statement": "operator< is irreflexive, asymmetric, transitive, and being neither before nor after each other is transitive too; for finite points it is the order by x, then y.", "quantifier": "for all points of doubles", "why_tests_cant": "special values and both zeros; std::sort and ordered containers are undefined for an order without these laws", "anchors": ["src/fields2cover/types/Point.cpp:52-55"]}
