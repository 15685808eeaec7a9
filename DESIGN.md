# Formal model of Fields2Cover: design

The source is `/repo` (read as text, never built or run).  The model is in
`rocq/theories` (logical name `Verif`), the property list in
`properties.jsonl`, the status in `MANIFEST.json`, the wrong programs tried in
`seeded/LOG.jsonl`.

## 1. How the model is built

* **One C++ function = one Gallina function**, total and (except for real
  trigonometry) executable.  Each definition carries a comment with the file
  and lines it models and what was simplified.
* **Outcomes.**  A C++ call is a value of
  `outcome A := Ok a | Throw e | UB | Hang` (`Outcome.v`).  Out-of-range
  `operator[]`, `back()` on an empty vector, iterators past the end,
  dereferencing null, integer division by zero, signed overflow and conversions
  out of range are `UB`; `at()` and explicit throws are `Throw` with the class
  of the exception (`TypeError` for the JSON library's own exceptions).  Loops
  that may not terminate have fuel and answer `Hang` when it is used up.
  Theorems either exclude `Hang` by a bound on the rounds proved sufficient, or
  are about every fuel.
* **Numbers.**  Code on `double` is written once over a record of operations
  (`Num.v`).  `RNum` is exact arithmetic over `R`, used for the positive
  theorems; `FNum` is Coq's primitive IEEE binary64 floats, used for refutations
  that live in rounding, NaN and infinities, and for comparison with values
  asserted in `/repo/tests`.  Some statements hold for every record, so for both.
  Where only discrete structure matters (orders, routes, graphs) the point type
  is an arbitrary type and the comparison an arbitrary boolean function, so NaN
  and rounding are covered.  Sizes are `nat`; where the code converts or wraps,
  `mod 2^64` or `mod 2^32` is written out over `Z`.
* **Sharing.**  Copies of geometries share their data in the code.  The model is
  of values, and `Alias_*` has the same swath operations on a heap of shared
  lines, with theorems on when the two agree; `Parts_*` does the same for
  collections and the handles to their parts, `Holder_*` for fields and their cells, `RShare_*` for routes and their connections.
* **Oracles.**  Calls into libraries are arguments (Section variables,
  universally quantified in the closed theorem).  What a theorem assumes of them
  is a hypothesis of that theorem.
* **Layout.**  For an area `X`: `X_Model.v` (definitions with citations, no
  proofs), `X_Spec.v` (independent vocabulary for the statements),
  `X_Proofs*.v` (lemmas), `X_Props*.v` (theorems, each with an `Example` of a
  concrete case and `Print Assumptions`).

## 2. Trusted base

* The Coq 8.16.1 kernel, with `vm_compute` and primitive floats and integers.
* Axioms of the standard library only, listed per theorem in section 6.
* The reading of the C++ code: that each definition does what the cited lines do.
* For theorems over `R`: that the difference between `double` and exact
  arithmetic does not matter to the reader.  Nothing is claimed about it except
  where a theorem is about `FNum` or about every number type.
* The oracles, in the sense that the real libraries satisfy the hypotheses:

| oracle | stands for | assumed where stated |
|---|---|---|
| `wkt` | export to and import from WKT in clone() | identity on points, or nothing |
| `keq`, `near`, `p_lt`, `p_neq_xy` | comparisons of points with tolerance | nothing, or an equivalence |
| `sort_fn`, `sort_perm` | std::sort | any permutation that is sorted |
| `enum`, `node_order`, `edge_order` | iteration order of unordered maps | any permutation |
| `sched` | order of the tasks of the parallel transform | any permutation |
| `solver` | OR-tools | any tour, or none |
| `buffer`, `difference`, `inter`, `covered`, `covered_area`, `cs_area`, `intersects`, `within`, `touches`, `hull`, `geos`, `inside`, `intersection`, `union` | GEOS through GDAL | nothing, or equations between point sets |
| `get_area`, `area` | OGRPolygon::get_Area | shoelace formula for the random cells, else nothing |
| `get_controls`, `get_path`, `simple`, `simple_turn`, `turn`, `lib`, `ctl` | steering_functions | nothing, or that the curve for the request is right (`sampled` in Curves_Spec) |
| `clothoid` | steering library's clothoid | nothing |
| `mk` | OGRCreateCoordinateTransformation | any function, or null |
| `fromWkt`, JSON and XML trees | importers of GDAL, nlohmann and tinyxml2 | trees are given as data |
| `cosf`, `sinf`, `angle`, `angle_of` | libm on an arbitrary number type | nothing |
| `u` | the uniform random numbers | in [0, 1) |
| `addr`, `spent` | addresses of shared geometries; the text left in a moved-from string | nothing |
| `closest`, `dist_cost`, `cost2`, `cost4`, `edge`, `mid`, `far` | costs and helpers given to generic code | stated there; the exact instances are modelled in other areas |

* Drawing calls of matplot are recorded as a list and not interpreted.
* Reading and writing numbers (Codec) is modelled character by character, in the
  classic locale; files are texts.

## 3. What is modelled, and what is not

| area | code |
|---|---|
| Swath, Alias | types/Swath, Swaths, SwathsByCells; route_planning order classes |
| Graph, Graph2D | types/Graph, Graph2D |
| Point, Angle, Border, Container, Ogr | types/Point, Geometry, Geometries, LineString, LinearRing, MultiPoint, MultiLineString, Cell, Cells |
| Route, RoutePlanner | types/Route, route_planning/route_planner_base |
| Objective | objectives |
| SwathGen, Best, Decomp | swath_generator, headland_generator, decomposition |
| Spline, Path, Robot | utils/spline, types/Path, PathState, Robot |
| Turning, Curves, PathPlanning | path_planning |
| Sets | set operations of types/Cells, Cell, MultiLineString |
| Float | double-precision results of types/Point and brute_force |
| Field, Transform, Text | types/Field, utils/transformation |
| Parser, Codec | utils/parser, saving and loading of paths |
| Random | utils/random |
| Moves | copying, moving and exchanging of types/Point, Geometry, PathState, Field, Swath |
| Measures | length of a route (types/Route, LineString), objectives/hg_obj |
| Parts | lifetimes of the parts of types/Cells, MultiLineString, Cell (handles with an empty destructor) |
| Holder | types/Field and utils/transformation on a heap of shared cells |
| RShare | types/Route on a heap of shared connections |
| Best | swath_generator with its objectives: what generateBestSwaths returns |
| CompleteTurn | objectives/rp_obj/complete_turn_path_obj.h with the planner it holds, objectives/pp_obj |
| Plan | fields2cover.cpp |
| Vis | utils/visualizer |

Not modelled: the libraries above themselves; SWIG bindings; file-system errors;
allocation failure; trivial getters and setters that return or assign a member; the
exports to WKT, GML, KML and JSON text; Visualizer's figure, axis and save calls;
destruction; `Geometries::append`, which calls a member `insert` that does not exist
(it does not compile when used).

## 4. Wrong programs

`seeded/LOG.jsonl` has one line per edit of a model definition made in a scratch copy.
"caught" means that the build of the area's theorems fails; the theorem that fails, or
the theorems that depend on the lemma that fails, are listed.  Edits that survived led
to tightened theorems, after which they were run again; those that compute the same
function are marked as equivalent with the reason.

A failing build shows that the proof no longer goes through, not that the statement has
become false: a proof may depend on the form of a definition.  The "caught" lines were not
each checked for this, so some of those edits may compute the same function, and the
share of "caught" lines overstates what the statements by themselves tell apart.


## 5. Per property plan

Status as in `MANIFEST.json`; "partial" is mostly a finding: the
statement is kept, a `_refuted` theorem gives the witness, and what does hold is proved.

| id | property | status | model and proof idea | limits, findings |
|---|---|---|---|---|
| C01 | Swath ordering loses and duplicates nothing | proved | swaths as records over an abstract point type, `Swaths`, order classes; `std::sort` as relation; rotate/reverse are permutations; fold invariants | all strategies, any legal std::sort result, any point/width type (NaN included) |
| C02 | Snake order visits evens up, odds down | proved | `SnakeOrder::sortSwaths` with std::rotate/reverse on lists with iterator range checks; loop invariant: prefix = evens, suffix = rest | instance k = Snake of the exact-position theorem; n=1 is excluded because the call is undefined there (C03) |
| C03 | Snake order is safe for every non-empty input | partial (refuted) | same; out-of-range iterators are `UB`; refute for n = 1, prove for n <> 1 | FINDING, refuted as stated: exactly one swath is undefined behaviour (std::reverse(begin+2,end) on one element). Proved: safe for every other length. |
| C04 | Spiral order has the documented shape | proved | `SpiralOrder::spiral`; loop invariant inside a block, blocks disjoint | instance k = Spiral s of the exact-position theorem with spiral_pos |
| C05 | Any spiral size accepted by the API is safe | partial (refuted) | `setSpiralSize` + division; refute for size 0, prove for the rest | FINDING, refuted as stated: setSpiralSize(0) then sorting divides by zero. Proved: every size >= 1 is safe. |
| C06 | Custom order is validated exactly and applied exactly | proved | `CustomOrder` checks; pigeonhole: NoDup + length + range = permutation | non-empty list; for the empty list genSortedSwaths returns before the check |
| C07 | Consecutive swaths carry opposite direction flags | proved | `reverseDirOddSwaths`; induction with previous flag | flags alternate; same_swath in ordering_positions ties the flag to the reversal of the line |
| C08 | Parallel swaths are driven in alternating directions | partial (refuted) | same; refute for mixed drawing direction; prove for uniform direction | FINDING, refuted as stated: (0,0)-(10,0) and (10,1)-(0,1) are both driven left to right. Proved for consistently drawn swaths (C81). |
| C09 | The variant argument selects start corner and only that | partial (refuted) | `changeStartPoint` on Z bit operations; bits of variant mod 4 | FINDING, refuted for CustomOrder not starting with swath 0: bit 1 has no effect. Proved for the other strategies (C82). |
| C10 | Cloning a swath preserves all of its observable attributes | partial (refuted) | `Swath::clone`, constructors, `setWidth`; refute type/zero width; prove rest | FINDING, refuted as stated: the swath type is lost, and a swath without width cannot be cloned. Exact behaviour proved (C83). |
| C11 | Swath comparison operators are consistent | partial (refuted) | comparison operators over R points; refute symmetry; prove what holds | FINDING, refuted as stated for swaths with different direction flags. Proved for equal flags (C84). |
| C12 | Swath ids produced by append are consecutive | proved | `Swaths::append`; induction | sizes below 2^31 (id is an int) |
| C13 | Copies of a swath are independent of the original | partial (refuted) | heap of shared geometry cells, handles; refute for copies, frame theorem for clones over all histories | FINDING, refuted as stated: copies share the OGR object, so reversing a copy (or a flattened or appended swath, or the LineString it was made from) reverses the points of the original but not its direction flag, and moving a container with two copies moves them twice; clone() gives independence (C189, C190) |
| C14 | Global swath index addresses the flattened list | proved | `getSwath` loop; induction on outer list | sizeTotal is right for totals below 2^31 (its accumulator is an int, beyond that it wraps: sizeTotal_wraps); getSwath without bound |
| C15 | Shortest path cost is the minimum over all walks | proved | `Graph` with finite maps, matrices as functions on lists, int64 range checks; Floyd-Warshall invariant over intermediate sets; canonical path argument for the successor matrix | costs in [0, INF), INF <= 2^62; the overflow check of every addition is part of the model |
| C16 | Shortest path is a real path of that cost | proved | `Graph` with finite maps, matrices as functions on lists, int64 range checks; Floyd-Warshall invariant over intermediate sets; canonical path argument for the successor matrix | termination of the next-hop walk included (zero-cost cycles allowed) |
| C17 | Path queries reflect the current edges after any history | partial (refuted) | op histories; refute by witness (removal keeps cache) | FINDING, refuted as stated: removeEdge/removeDirectedEdge keep the cached matrices, so a removed edge is still reported. Proved for histories of insertions and queries (C18). |
| C18 | Cached path matrices stay correct under edge insertion | proved | op histories without removal; invariant: cache empty or computed from current edges | mutation of the matrices through the references returned by getCosts/getPaths is not modelled |
| C19 | Path queries are memory safe on every graph | partial (refuted) | range checks in the matrices; refute by witness; prove safety for dense sources | FINDING, refuted as stated: a node without outgoing edges or sparse ids index out of range. Exact condition proved (C86); allPathsBetween is proved safe under it. |
| C20 | All-paths search returns exactly the simple paths | proved | DFS; induction on unvisited nodes | for any iteration order of the hash map |
| C21 | Point graph keeps points and indices in bijection | proved | `Graph2D` maps as association lists with a key equality; invariant over histories | for any key comparison that is an equivalence (see C22/C88); histories of the point interface, including removals and queries |
| C22 | Points that compare equal are one node | partial (refuted) | tolerance equality and hash over exact numbers; refute by witness | FINDING, refuted as stated: equal points (within 1e-7) can have different hashes, equality is not transitive, and hashing a point with negative x is an out-of-range float to size_t conversion. Proved for grid points (C88). |
| C23 | Removing an edge removes exactly that edge | proved | map operations; direct |  |
| C24 | Route keeps connections and swath groups interleaved | proved | `Route` as two lists; invariants/refinement over op lists | building calls only; mutation through the references returned by the accessors is not modelled |
| C25 | A route is driven in the order it was built | proved | `Route` as two lists; invariants/refinement over op lists | the line is proved as a list of points; length() is the length of that line (route_total_length) |
| C26 | Route start and end point | proved | `Route` as two lists; invariants/refinement over op lists | precondition as in the statement; without it the end point is the default point (route_end_point_refuted) |
| C27 | Inserted connections join end to start | proved | `Route` as two lists; invariants/refinement over op lists | graph built from two-way edges (C87); unknown end points raise out_of_range |
| C28 | The coverage route visits every swath exactly once | proved | coverage graph and tour conversion; mid node has only two neighbours | for swath end points, middles and depot that are pairwise different nodes, positive widths and a shortest-path graph that answers queries; genRoute_complete (C91) discharges the last condition |
| C29 | Route conversion is safe for every solver answer | partial (refuted) | unsigned subtraction and depot index; refute by witness; prove for the non-degenerate case | FINDING, refuted as stated: a start/end point on a swath end makes another node the depot and loses a swath (or raises out_of_range); no swaths, a one-node answer or a null solution are undefined behaviour. Safe case proved in coverage_route_complete / genRoute_complete (C91). |
| C30 | Route cost equals driven length | proved | RP objective; induction; refute for empty connections | exact arithmetic; swaths with at least two points (otherwise getInAngle raises out_of_range) |
| C31 | Route cost never misses a jump | partial (refuted) | RP objective; induction; refute for empty connections | FINDING, refuted as stated: addSwath, addConnection(), addSwath gives an empty inner connection whose jump costs nothing. Exact deficit proved (C95). |
| C32 | Overlap objective counts every pair of swaths | partial (refuted) | overlap double loop; exact pair set; refute for 3 swaths | FINDING, refuted as stated from three swaths on. Exact behaviour proved (C96). |
| C33 | Modified swath-count objective uses each border edge once | partial (refuted) | ring sum with explicit mod 2^64; exact; refute for ring of 6 points | FINDING, refuted as stated: (0-1) % 6 = 3 in 64-bit arithmetic, so a pentagon gets a diagonal counted. Exact behaviour proved (C97). |
| C34 | Swath objectives are additive and empty-safe | partial (refuted) | sums; induction; empty list outcome | FINDING, refuted for FieldCoverage with an empty list (swaths[0]). Additivity and empty cost 0 proved; definedness exact in C98. |
| C35 | Swath lines leave no gap | proved | line placement over R; arithmetic progression, ceil | exact arithmetic; lines before clipping; cells of positive height across the driving direction |
| C36 | Swath generation terminates | partial (refuted) | line placement over R; arithmetic progression, ceil | FINDING, refuted as stated: a width of 0 or less never ends; see C104 for the exact statement |
| C37 | The overlap setting changes the swaths | partial (refuted) | line placement over R; arithmetic progression, ceil | FINDING, refuted as stated: the extra line of the overlap setting always lies outside the field and is clipped away; see C107 |
| C38 | Brute force returns a best angle of its grid | proved | arg-min, schedules as permutations of writes; induction | exact arithmetic; cost function total on the grid |
| C39 | Brute force is safe for every step angle | partial (refuted) | arg-min, schedules as permutations of writes; induction | FINDING, refuted as stated: undefined for step 0 and above 2 pi, length_error below 0; see C105 |
| C40 | Headland swath distances | partial (refuted) | headland distances with buffer oracle; induction; boundary refutation | FINDING, refuted as stated: inside out with n = 0 returns a ring outside the field, and parts too thin for the innermost ring lose their outer rings; see C108 |
| C41 | Pipeline uses an existing headland ring | partial (refuted) | headland distances with buffer oracle; induction; boundary refutation | FINDING, refuted as stated: n <= 0 reads out of bounds; see C106 |
| C42 | Path length and time are additive | proved | path states over the numeric record; induction, real arithmetic, float witness | exact arithmetic; the argument is a different path object, see C111 |
| C43 | Evaluating a path by distance stays on the path | partial (refuted) | path states over the numeric record; induction, real arithmetic, float witness | proved in the plane, exact arithmetic; FINDING, refuted for the height: the result always has z = 0 |
| C44 | Evaluating a path at its own length gives its end, in double precision | partial (refuted) | path states over the numeric record; induction, real arithmetic, float witness | FINDING, refuted as stated: lengths 0.1, 0.2, 0.3 give the default state at the origin. What holds with doubles: up to a 2^-50 part per state before its length, a path is evaluated in one of its states and at the length asked for up to a 2^-52 part per state (path_at_float) |
| C45 | Discretising a straight state keeps it | partial (refuted) | path states over the numeric record; induction, real arithmetic, float witness | proved except for the height, exact arithmetic, every step other than 0; FINDING, refuted for the height: it drifts towards 0 along the state |
| C46 | Reducing a path keeps its length | proved | path states over the numeric record; induction, real arithmetic, float witness | exact arithmetic for the sums; idempotence also for doubles |
| C47 | Resampling a path keeps its length and its segment types | proved | path states over the numeric record; induction, real arithmetic, float witness | exact arithmetic; also no-length states, which are dropped; angles of moderate size |
| C48 | Resampling never deletes a path | partial (refuted) | path states over the numeric record; induction, real arithmetic, float witness | FINDING, refuted as stated: a path of three or more states shorter than step / 10 becomes empty; see C119 |
| C49 | Cubic spline interpolates its knots | partial (refuted) | Thomas algorithm over the numeric record; recurrences, diagonal dominance; refute at knot 1 | FINDING, refuted as stated: d_vec_[0] is cleared, so the value at the second knot is wrong (1.5 instead of 1) and the curve jumps there; proved: exact values at all knots |
| C50 | Cubic spline is a natural spline beyond its second knot | proved | Thomas algorithm over the numeric record; recurrences, diagonal dominance; refute at knot 1 | exact arithmetic |
| C51 | Saving and loading a path round-trips | partial (refuted) | token printer/parser; induction | FINDING, refuted as stated for paths with an infinite or undefined number: everything from that state on is silently lost. For finite numbers up to 2^1023 it holds (C169). Opening and writing files is taken to work. |
| C52 | Turn normalisation is lossless | proved | normalisation over R with trigonometry; rotation algebra | exact arithmetic |
| C53 | Turn cache is transparent | partial (refuted) | cache as state machine with generator oracle; invariant; refute | FINDING, refuted as stated: the key has neither the turning velocity nor the discretization, and rounds the rest to 1/1000, so stored turns of other requests are returned; what is returned is C54 |
| C54 | Turn cache only reuses turns of the same quantised key | proved | cache as state machine with generator oracle; invariant; refute | the generator is any function of robot, discretization, distance and angles; 2/1000 when the signs differ |
| C55 | Continuous-curvature Dubins retry loop is bounded | proved | retry loop with steering oracle; bounded count | get_controls/get_path (steering_functions) are oracles; non-negative curvature limits |
| C56 | Steering states become a contiguous path | proved | planner with turn oracle; list inductions | exact arithmetic; the driving direction is cast, see C125 |
| C57 | Planned path contains every swath in order | proved | planner with turn oracle; list inductions | exact arithmetic; generator is an oracle making turn states only (as steerStatesToPath does) |
| C58 | Path planning is defined for every route | partial (refuted) | planner with turn oracle; list inductions | FINDING, refuted as stated: a route holding only a connection makes planPath call back() on an empty vector; plan_defined is the true version |
| C59 | Connection simplification keeps both end poses | proved | planner with turn oracle; list inductions | exact arithmetic; end_of_clothoid is an oracle |
| C60 | Angle normalisation | proved | real functions (`mod`, atan2 defined from `atan`); real analysis; float witnesses In doubles the remainder is exact because it fits into 53 bits (FloatErr_Proofs5), which leaves one rounded sum. | binary64, with std::fmod computed by integers: in range, and congruent up to 2^-49 (mod_2pi_float). For any rounding: std::fmod is exact, the only rounding is the addition; range proved for every monotone rounding that keeps 0; 2*pi is any positive modulus |
| C61 | Angle continuity | partial (refuted) | real functions (`mod`, atan2 defined from `atan`); real analysis; float witnesses | FINDING, refuted for huge angles (conversion to int out of range) and the empty vector (val[0]). Proved up to 1e10 (C93); exact arithmetic |
| C62 | Absolute angle difference is a metric on directions | proved | real functions (`mod`, atan2 defined from `atan`); real analysis; float witnesses | exact arithmetic |
| C63 | Rotation about a point is a rigid motion | proved | real functions (`mod`, atan2 defined from `atan`); real analysis; float witnesses | exact arithmetic; horizontal coordinates (z is set to 0) |
| C64 | Closest point on a segment, line and ring | partial (refuted) | real functions (`mod`, atan2 defined from `atan`); real analysis; float witnesses | FINDING, refuted as stated: one-point lines are undefined, and on sloped lines the projection is made in space while the choice is made in the plane. Segment case proved in full; level lines and borders proved (C94). |
| C65 | Intersection of lines lies on both lines | proved | real functions (`mod`, atan2 defined from `atan`); real analysis; float witnesses | exact arithmetic, planar |
| C66 | Polar coordinates round-trip | proved | real functions (`mod`, atan2 defined from `atan`); real analysis; float witnesses | exact arithmetic, x and y; the height is dropped (polar_height_refuted) |
| C67 | Convexity test accepts exactly convex borders | partial (refuted) | turning test; refute with reflex start vertex; exact characterisation | FINDING, refuted as stated: the start vertex is not looked at (a dart starting at its notch is convex), and a straight vertex counts as a left turn (a clockwise square with a point on an edge is not); the exact meaning is C137 |
| C68 | Moving a geometry moves every point by exactly the offset | partial (refuted) | iterator write-back protocol; case analysis; refute small offsets / discarded assignment | FINDING, refuted as stated: a point whose new position is within 1e-7 in every coordinate is not written back; exact version in C134 |
| C69 | setGeometry writes exactly one element | partial (refuted) | container as list with OGR emptiness; list lemmas | FINDING, refuted as stated: indices past the end append too few or too many elements, and MultiPoint reads out of bounds; exact version in C135 |
| C70 | Field keeps absolute positions | partial (refuted) | field record with CRS oracle; algebra | FINDING, refuted as stated: clone() drops the previous coordinate system, and replaces the reference point by the first border point (the default point for an empty field); absolute positions, id and coordinate system are kept up to twice the error of the text round trip |
| C71 | EPSG codes round-trip | proved | byte strings; string functions and lemmas; refute one-digit zones | every 32-bit code |
| C72 | UTM zone and hemisphere are recovered | partial (refuted) | byte strings; string functions and lemmas; refute one-digit zones | FINDING, refuted as stated: zones 1 to 9 written without a leading zero keep the hemisphere letter in the zone and lose the hemisphere flag; proved for two-digit zones |
| C73 | Coordinate transformation can be undone | partial (refuted) | field record with CRS oracle; algebra | FINDING, refuted as stated: the reference point does not come back when it was not the first border point; positions, id and systems do (C151, C158) |
| C74 | GML coordinate text is converted faithfully | proved | byte strings; string functions and lemmas; refute one-digit zones | texts as character lists; the loop is modelled with fuel that provably suffices |
| C75 | Robot constructor validates its widths | partial (refuted) | robot, sign flip; direct | FINDING: proved for numbers, but a NaN width passes the check, and the constructor (not the setter) accepts negative curvature limits |
| C76 | Objectives with maximisation are minimised with flipped sign | proved | robot, sign flip; direct | exact arithmetic |
| C77 | Random cells have the requested area | partial (refuted) | shoelace area under scaling over R; algebra | FINDING, refuted as stated: scaling skips vertices that would move by less than 1e-7, so the area may differ; proved exact when no vertex is that close, and with an error bound in general. Area of the library = shoelace formula (trusted). |
| C78 | Splitting cells by lines keeps parts inside | partial (refuted) | iterator write-back protocol; case analysis; refute small offsets / discarded assignment | FINDING, refuted as stated: the growth is assigned to a loop variable that never writes back; the sequence part is proved |
| C79 | Line until border stops at the nearest crossing | proved | arg-min; induction | exact arithmetic; intersection, touches and within (GEOS) are oracles; crossings nearer than the largest double |
| C80 | Ordering succeeds exactly on usable input and fails in a known way | proved | all outcomes of every order class; case analysis on sizes |  |
| C81 | Consistently drawn swaths are driven in alternating directions | proved | flags alternate and all lines are drawn the same way, so the travelled directions alternate | hypothesis: the text round trip of clone() keeps the coordinates of the given swaths |
| C82 | Start variants of the built-in orders | proved | position of the first swath under each variant |  |
| C83 | Cloning a swath with positive width keeps everything but the type | proved | clone through the text format, field by field |  |
| C84 | Swath comparison is consistent between swaths of equal direction flag | proved | comparison reduces to an order on one coordinate | for any double comparison that is symmetric; own reverse needs no NaN and equal lengths of the line and its reverse |
| C85 | Spiral sizes set by a constructor are safe | proved | sizes are checked by the constructor |  |
| C86 | Path queries are safe exactly on dense node ids | proved | ids below the size of the matrices on every query |  |
| C87 | Shortest paths between points | proved | refinement of Graph2D to Graph: node numbers are injective, so costs and paths carry over | a one-way edge into a sink makes the queries undefined: point_query_safe_refuted |
| C88 | Grid points are proper keys | proved | integers scaled by the tolerance are equal or far apart | exact arithmetic |
| C89 | Cloning a route | proved | clone of every part; induction over swaths and connections |  |
| C90 | The shortest-path graph connects what the borders connect | proved | graph built from borders; reachability = connectedness of rings and swath ends | key comparison an equivalence that the nearness test respects (see C22) |
| C91 | Route planning end to end | proved | composition: tour of the solver -> order -> route; every swath once | the solver is an oracle: any round tour along existing arcs; a tour is proved to exist; distances bounded so that no route reaches the planner's infinity |
| C92 | Direction of travel at a point of a line | proved | cases on the position in the line: half way between the neighbouring segments |  |
| C93 | Angle continuity within the range of int | proved | rounded quotient in the range of int; three candidates |  |
| C94 | Closest point on level lines, rings and borders | proved | projection on segments; arg-min over segments, rings and cells |  |
| C95 | Route cost and its exact deficit | proved | double sum over the route; telescoping; the part not counted is exhibited |  |
| C96 | What the overlap objective computes | proved | exact set of pairs visited by the loops | areas and intersections are oracles (GDAL) |
| C97 | What the modified swath count computes | proved | exact value with wrap-around | exact arithmetic |
| C98 | Definedness of swath objectives on a field | proved | outcomes by emptiness |  |
| C99 | Headland objective is the remaining share | proved | 1 - area of difference / area |  |
| C100 | Clipped swath lines cover the cell | partial (refuted) | laid lines are spaced by one width; clipping oracle | FINDING, refuted as stated: with height 1.4 widths the strip above 1 width is not covered by a line that meets the field; proved: everything more than half a width below the upper border is covered |
| C101 | Generated swaths carry width, number and order | proved | induction over the lines | clipping (GDAL) is an oracle |
| C102 | Turn angles | proved | angles by atan2 over R | exact arithmetic |
| C103 | Angles at the ends of a swath | proved | first and last segment of the path of a swath |  |
| C104 | Swath generation ends with the exact line count | proved | arithmetic progression, ceiling | exact arithmetic |
| C105 | Brute force is safe exactly for steps in (0, 2 pi] | proved | loop count of the angle search | exact arithmetic |
| C106 | Middle headland ring | proved | condition on the number of rings asked for | buffer (GDAL) is an oracle |
| C107 | Overlap setting only adds a line outside the field | proved | one more line beyond the top of the box | exact arithmetic |
| C108 | Headland rings, both directions | proved | distances in both directions | buffer (GDAL) is an oracle |
| C109 | Unsorted knots are rejected | partial (refuted) | constructor checks only some neighbours; witness | FINDING, refuted as stated: the order of the first two knots is not checked; see C110 |
| C110 | Errors of the spline constructor | proved | order of the checks | exact arithmetic |
| C111 | A path can be appended to itself | partial (refuted) | iteration over a vector that grows; witness of undefined behaviour | FINDING, refuted as stated: undefined for every non-empty path appended to itself; for other paths see C42 |
| C112 | Moving, turning and mirroring a path moves its curve | proved | similarity applied to states commutes with the curve of a state | exact arithmetic |
| C113 | Path setters change exactly one field | proved | field by field | any number type |
| C114 | Path bounding box | proved | minimum and maximum over states | exact arithmetic |
| C115 | Appending a swath drives along it | proved | states along the polyline; lengths and angles | exact arithmetic |
| C116 | Polyline of a path | proved | points of states and end of the last | exact arithmetic |
| C117 | Resampling paths that are short or do not move | proved | degenerate spline arguments | exact arithmetic |
| C118 | Resampling with a negative count is safe | partial (refuted) | conversion to size_t; witness | FINDING, refuted as stated: a negative count is converted to a huge unsigned bound and reads out of bounds |
| C119 | Discretising keeps the length unless the path is tiny | proved | sum of parts; exceptions for tiny states | exact arithmetic; angles of moderate size |
| C120 | Swath constructors and setters | proved | all constructors | width test and number type abstract |
| C121 | What createTurn returns | proved | cache, normal form, transformation back | exact arithmetic; generator is an oracle |
| C122 | A turn connects the asked poses | proved | frame change is a similarity; end pose | exact arithmetic; generator is an oracle |
| C123 | Creating a turn is defined for every robot | partial (refuted) | conversion of the cache key to int; witness radius 0 | FINDING, refuted as stated: for every robot after setMinTurningRadius(0) the key conversion overflows int; proved defined below 2147483 |
| C124 | Meaning of isTurnValid | proved | tolerances of the test | exact arithmetic; the end point is where the last state leads, its own point for a last state of length 0 |
| C125 | Directions of turn states are enumerators | partial (refuted) | direction taken from a sign including 0; witness | FINDING, refuted as stated: direction 0 of the steering library is stored as it is |
| C126 | Meaning of loop_detected | proved | sum of angle changes | exact arithmetic |
| C127 | Robot setters change exactly one value | proved | field by field |  |
| C128 | Turning radius round trip | proved | 1 / (1 / x) with exact arithmetic; witness 1e7 | exact arithmetic; robot_radius_refuted: a radius of 1e7 comes back halved |
| C129 | A robot always has positive widths | partial (refuted) | setters do not check; witness | FINDING, refuted as stated: default construction gives widths 0, setters check nothing |
| C130 | Path planning is defined for plannable routes | proved | all indexes in range and all turns defined for plannable routes; invariant of the planner | turn oracle total, with an invariant of the planner, between places of a convex set; shown met by a new planner with cache within 100 km of the origin |
| C131 | Simplified connections hold only entering poses | proved | points removed from connections | FINDING: the exit-pose branch of simplifyConnection (path_planning.cpp 148-154) is dead code |
| C132 | Slight changes of direction are not bends | partial (refuted) | tolerance on angles; witness | FINDING, refuted as stated: headings 0.01 and 2 pi - 0.01 count as a bend; simplified_connection has the exact (unwrapped) test |
| C133 | Path planning accepts single-point connections | partial (refuted) | angle of a connection of one point; witness | FINDING, refuted as stated: a first or last connection of one point throws invalid_argument |
| C134 | Moving and scaling by more than the tolerance | proved | iterator write-back with tolerance | exact arithmetic |
| C135 | setGeometry at each index | proved | loop of setGeometry |  |
| C136 | Translating cells is exact | proved | cells are rebuilt, so no tolerance | exact arithmetic; text format keeps coordinates; cells_moved_refuted shows the condition on empty parts is needed |
| C137 | Meaning of the convexity test | proved | orientation of successive edges; parity | exact arithmetic; area is an oracle |
| C138 | Helper lines are long enough | proved | length of the helper line versus the box | exact arithmetic; ray_reaches_refuted: not from outside the box |
| C139 | Cell at a point | proved | first cell in the list that contains or touches | touches and within are oracles |
| C140 | What an EPSG text is read as | proved | scanner for digits, proved against a grammar |  |
| C141 | EPSG codes anywhere in the text | partial (refuted) | witness texts | FINDING, refuted as stated: the number is always read from the sixth character on; proved when EPSG: starts the text (C140) |
| C142 | What the UTM expressions find | proved | hand-written matcher for the regular expressions against a specification of matches | the regular expressions are modelled by a backtracking matcher with ECMAScript priorities |
| C143 | Two-digit zones are recovered | proved | decimal printing and reading |  |
| C144 | Setting a UTM system keeps code and datum | proved | concatenation and search |  |
| C145 | Hemisphere of every accepted UTM text | partial (refuted) | text without a zone code; witness | FINDING, refuted as stated: getUTMHemisphere throws out_of_range on a text with UTM: but no code; utm_defined gives the exact condition |
| C146 | Absolute positions of a field | proved | reference point plus local coordinates | cells whose polygons have a non-empty exterior ring and closed rings |
| C147 | Fields from any non-empty cells | partial (refuted) | first polygon empty; witness | FINDING, refuted as stated: cells whose first polygon is empty; proved for cells where every polygon has a border with points |
| C148 | What a system text asks for | proved | case analysis on prefixes |  |
| C149 | PROJ text of every zone | partial (refuted) | one-digit zones; witness | FINDING, refuted as stated: for zones 1 to 9 the hemisphere letter ends up in the zone number and the hemisphere flag is lost, so southern fields west of 126 W are placed as if northern; proved for two-digit zones (C148) |
| C150 | The UTM zone contains the field | partial (refuted) | floor of the longitude; witness 180 degrees | FINDING, refuted at longitude 180, which gets zone 61; proved for longitudes in [-180, 180) |
| C151 | Transforming a field moves its positions | proved | map over points with the transformation oracle | exact arithmetic except the text round trip, whose error is a parameter; the conversion of the CRS library is an oracle that succeeds |
| C152 | A failed transformation leaves the field alone | partial (refuted) | order of the updates; witness | FINDING, refuted as stated: the cells were already moved by the reference point, so the field is displaced |
| C153 | Transformed swaths keep their attributes | partial (refuted) | attributes lost by reconstruction; witness | FINDING, refuted as stated: type and direction are lost, and a swath without width is refused; id, width and points proved |
| C154 | Transformed paths | proved | map over states | exact arithmetic |
| C155 | Transformed paths stay connected | partial (refuted) | headings of backward states; witness | FINDING, refuted as stated: headings of backward states are set to the direction of travel; proved when all states go forward |
| C156 | transformPath keeps paths connected | partial (refuted) | lengths are kept; witness; true for shifts | FINDING, refuted as stated: transformPath leaves lengths and headings as they were; proved for shifts |
| C157 | Transformed routes | proved | map over parts |  |
| C158 | To UTM and back | proved | inverse transformations compose | conversions are oracles that compose; exact text format |
| C159 | Replacing all occurrences | proved | search and replace without overlap, induction on length |  |
| C160 | Importing a GML parcel | proved | XML tree as data; path to the ring | tinyxml2 and the WKT parser are oracles: the theorem takes the parsed tree and the parser's answer |
| C161 | Malformed GML is refused | partial (refuted) | witness documents | FINDING, refuted as stated: missing elements, attributes or text and rejected coordinates are used as null pointers |
| C162 | White space between GML tuples | partial (refuted) | tokenizer; witness | FINDING, refuted as stated: a line break joins two positions, two blanks give an empty one; single blanks work (C74) |
| C163 | Importing JSON polygons | proved | JSON value as data type; induction | JSON syntax is nlohmann's; numbers are exact reals; text round trip of clone() is an oracle |
| C164 | No position is lost | partial (refuted) | positions of one or more than three numbers; witness | FINDING, refuted as stated: positions of one, or more than three numbers become (0,0,0) silently; two and three are right (C163) |
| C165 | Importing JSON fields | proved | loop over features | positions up to twice the text rounding error |
| C166 | Malformed JSON features are refused | partial (refuted) | missing keys; witness | FINDING, refuted as stated: operator[] of a const object with a missing key is undefined behaviour |
| C167 | Importing JSON swaths | proved | attributes of features | path_id an integer in the range of int |
| C168 | Importing JSON strips | proved | same for strips |  |
| C169 | Saving and loading at any precision | proved | printf %g, num_get and strtod character by character; error of rounding to the digits written | Bit-level doubles of the standard library; printf %g, num_get and strtod modelled character by character in the classic locale. |
| C170 | Saving with 17 digits is exact | proved | 17 significant digits identify a double: error bound of decimal rounding against the spacing of doubles | All finite doubles, including subnormal ones. |
| C171 | Loading any file ends | proved | structural recursion over tokens | Loading may still be undefined behaviour when a direction or section number does not fit an int. |
| C172 | Undefined numbers are kept | partial (refuted) | inf and nan; witness | FINDING, refuted as stated: operator<< writes inf/nan and operator>> refuses them, so loading stops without an error. |
| C173 | Where loading stops | proved | first bad token | load_stops for precision 17 and more, load_stops_rounded for every precision. |
| C174 | Default precision keeps positions | partial (refuted) | 6 digits; witness | FINDING, refuted as stated: the default precision of 6 digits moves a point at northing 5712345 by five metres. The error bound that does hold is that of C169. |
| C175 | The problem handed to the solver | proved | cost matrix and depot | Preconditions as in C91; edge costs are integers (the code rounds distances to millimetres). |
| C176 | Where a state ends | proved | cases on forward/backward; end of a state | exact arithmetic |
| C177 | Order and inequality of points | proved | tolerance order | exact arithmetic |
| C178 | Hash of a point | proved | hash is a function of coordinates; combination formula | bit-level doubles; the key is a float computation as written |
| C179 | Sizes of an empty cell | proved | envelope of no points is 0 | exact arithmetic |
| C180 | Reading the parts of a collection | partial (refuted) | size() of a collection of empty parts; witness | FINDING, refuted as stated: a collection whose parts are all empty has size() 0, so its parts cannot be read; proved as soon as one part is not empty |
| C181 | A UTM zone for every longitude | partial (refuted) | conversion of a negative double; witness | FINDING, refuted as stated: west of -186 degrees a negative double is converted to size_t, which is undefined; exact range proved |
| C182 | JSON documents of any shape | proved | total functions over JSON values | parsed documents; the JSON reader itself is outside the model |
| C183 | Numbers of JSON swaths | proved | range of numbers |  |
| C184 | Transformations that cannot be made | partial (refuted) | null pointer of the transformation oracle | FINDING, refuted for the first half: the null transformation is used (undefined behaviour), transform_null; the second half is proved |
| C185 | Random cells are never degenerate | partial (refuted) | three points on a line; witness | FINDING, refuted for n = 3 (three points on a line; division by zero); proved for n >= 4, without rounding in the text round trip |
| C186 | Random convex and non-convex cells and fields | proved | polygon by increasing angles; loop until non-zero area | termination of the loops is not claimed: it depends on the draws |
| C187 | Ranges of random numbers | proved | linear and logarithmic transformation of uniform draws | exact arithmetic; distributions as in libstdc++ |
| C188 | Exponential draws are positive | partial (refuted) | log 0; witness | FINDING, refuted: a draw of 0 gives 0; not negative is proved (C187) |
| C189 | Swaths behave as values as long as no shared line is changed | proved | heap of shared lines; simulation with values | std::sort taken to depend on the ids only; effect of moveTo on the points of a line is a parameter |
| C190 | Clones are apart from everything | proved | separation invariant over histories |  |
| C191 | What a change of a shared line does | proved | frame: exactly the sharers change |  |
| C192 | Ordering does not touch its input | proved | order classes copy handles; frame | std::sort taken to depend on the ids only |
| C193 | Planning in one call gives a route that drives every swath | proved | composition of all stages; every stage preserves the swaths | exact arithmetic; geometry library and solver as parameters; the conditions under which swaths can be routed are those of C36 (different ends, joined along the rings, near enough for the planner's infinity) |
| C194 | The route planned in one call covers the field | proved | spacing of lines and faithful clipping | exact arithmetic, exact text format, clipping faithful to the cell |
| C195 | Planning in one call always gives a route | partial (refuted) | witness options | FINDING, refuted as stated: no headland tracks with a constant headland is an out-of-range access; a robot without coverage width (the default one) never returns; a field smaller than its headland is undefined behaviour. True conditions: C193 |
| C196 | Planning a field in local coordinates | proved | transformation round trip | exact arithmetic, exact text format |
| C197 | Planning a field in its own system | proved | same | exact arithmetic, exact text format, composing conversions; longitude in [-180, 180) |
| C198 | Which options matter | proved | options not read by a branch do not matter |  |
| C199 | The path planned in one call drives every swath | proved | composition with the path planner | exact arithmetic, exact text format |
| C200 | Lines of the trapezoidal decomposition | proved | list of rays in order | crossings as reported by the geometry library, distances below the largest double |
| C201 | Each vertex splits its own cell | partial (refuted) | rays of vertices of other cells; witness | FINDING, refuted as stated: the lines are those of the first cell at the vertex, so a vertex shared with an earlier cell loses the line into its own. True when the vertex is at one cell only |
| C202 | Lines of the boustrophedon decomposition | proved | filter by turning angle | exact arithmetic; crossings within 60 degrees of the direction of the ray |
| C203 | Decomposition keeps the space of the cells | partial (refuted) | strips round split lines are removed; witness | FINDING, refuted as stated: the strips round the split lines are lost, because the growth of the parts has no effect. What is returned: C204 |
| C204 | What a decomposition returns | proved | set algebra of differences | difference of cells = difference of point sets |
| C205 | Colours for drawings are evenly spaced | proved | affine sequence; bounds | exact arithmetic; matplot itself is outside the model: the drawing calls are recorded as a list |
| C206 | Every drawn swath has a colour | partial (refuted) | 0/0; float witness | FINDING, refuted as stated: the spacing for one colour is 0/0, so a single swath (or a path of a single section) is drawn with colour components NaN; valid for two or more (C205) |
| C207 | All swaths are drawn | proved | trace of drawing calls; induction | below 2^31 swaths for swaths by cells, as for sizeTotal |
| C208 | Groups are drawn in the colours given | partial (refuted) | colours overwritten; witness and exact palette | FINDING, refuted as stated: the colours given are ignored; proved which colours are used |
| C209 | All states of a path are drawn | proved | runs of states; concatenation |  |
| C210 | Each section of a path is a curve | partial (refuted) | first state of the next kind; witness | FINDING, refuted as stated: the first state of another kind is put into the previous curve, and a curve without points is drawn when a section of one state ends the path; what is drawn is proved (C209) |
| C211 | Colours of points | partial (refuted) | write past the end; witness | FINDING, refuted as stated: a fourth component is written past the end of an array of three (undefined behaviour); exact behaviour proved |
| C212 | All lines, cells and fields are drawn | proved | trace; induction |  |
| C213 | Filled cells | proved | trace; induction |  |
| C214 | plotFilled fills every area it is given and no other | partial (refuted) | witness | FINDING, refuted as stated: plotFilled of a field only draws the outlines; plotFilled of a cell in one colour paints over its holes, unlike that of cells, and is undefined behaviour for a cell without rings |
| C215 | Lines are taken from any geometry | partial (refuted) | witness: a collection | FINDING, refuted as stated: a collection, as GDAL returns for lines and points together, is ignored altogether; otherwise true (C216) |
| C216 | Lines are taken from a geometry that is no collection | proved | case analysis on the kind of geometry |  |
| C217 | Swaths are made wherever a line goes through the cell | partial (refuted) | concrete cell, exact intersection computed by hand, no swaths | FINDING, refuted as stated: all lines are cut with the cell in one call, so if one of them only touches a corner the result is a collection and all swaths of the cell are lost, silently; true when the result is not mixed (C218) |
| C218 | Lines in a cell | proved | points of the result = points of lines and cell; an isolated point is no stretch | GEOS is an oracle: exact result assumed where stated; a null result is undefined behaviour |
| C219 | A line until the border ends at the border | partial (refuted) | same cell, ray | FINDING, refuted as stated: the line is empty if the ray touches the cell again further on (C215). What is returned for given pieces: C79 |
| C220 | Cells are taken from any geometry | partial (refuted) | witness: nested polygons | FINDING, refuted as stated: polygons that are not direct members of a collection are ignored; otherwise true (C221) |
| C221 | Cells and cell of a geometry | proved | case analysis on the kind of geometry |  |
| C222 | The band round a ring | proved | three library calls in sequence | buffer and difference are oracles |
| C223 | Segments of a line | proved | loop invariant | fewer than 2^64 points |
| C224 | Segments of any line | partial (refuted) | size() - 1 wraps | FINDING, refuted as stated: size() - 1 wraps round and the first point is asked for, which throws out_of_range |
| C225 | Parts by number | proved | int to size_t | up to 2^31 parts |
| C226 | Rings of cells | proved | list indices |  |
| C227 | Rings of cells are closed | partial (refuted) | witness: open ring | FINDING, refuted as stated: the ring is left open |
| C228 | The common part of cells | proved | A collection loses its points and lines; a box always contains a smaller box that misses finitely many segments, so these carry no area. With closed polygons the area is contained. | GEOS is an oracle: exact wherever it answers |
| C229 | Cells without others | proved | As C228; a box avoids the stray lines of both results. | GEOS is an oracle: exact wherever it answers |
| C230 | Cells joined | proved | As C228. | GEOS is an oracle: exact wherever it answers |
| C231 | Lines in cells | proved | As for one cell: pieces of an unmixed result are its lines. | GEOS is an oracle: exact wherever it answers |
| C232 | Growing lines, points and cells | proved | Cases of the result's type. | buffer and hull are oracles |
| C233 | Set operations never fail silently | partial (refuted) | The model returns UB for null. | FINDING, refuted as stated: the null pointer GDAL returns for invalid polygons is dereferenced, so cells that cross themselves make every set operation undefined behaviour instead of an exception |
| C234 | Intersections in UTM coordinates | partial (refuted) | Evaluation in binary64 and exact values of the doubles; the bound follows the errors of differences, products and the quotient through the formula (approx lemmas), with the cancellation showing as the square of the coordinates. | FINDING, refuted as stated: determinants of absolute coordinates cancel; 0.2 mm off for the diagonals of a square metre in UTM coordinates, while operator== tells points 1e-7 apart. What holds: the error is at most 2^-53 (64 L M^2 + 32 |Q| L^2) / delta for coordinates up to M, segments up to L and a determinant of at least delta (intersection_float). In exact arithmetic: C65 |
| C235 | A full turn is divided evenly | partial (refuted) | Evaluation in binary64. | FINDING, refuted as stated: the quotient may round to just below n and is cut off (n = 25, 41, 50, 63, 100, ...), so one direction is not tried; the default step does give 360, and never is more than the last direction missed (parts_count_float, n up to 10^9) |
| C236 | Turns of every planner | proved | The retry loop ends with limits between a part of and the robot's; steerStatesToPath keeps steps; the placing motion keeps steps up to the sign of the deviations; a chord seen from a heading off by phi misses by 2 l sin(phi/2). | the steering_functions library is an oracle: what is assumed of the curve it returns for the request is `sampled` in Curves_Spec; cache empty or off |
| C237 | The states of a turn join | partial (refuted) | Half circle sampled every quarter. | FINDING, refuted as stated: length and direction of the chord are mixed with the heading of the tangent, so on a curve a state leads off it; the gap is at most curvature times discretization squared (C236) |
| C238 | Turns with given curvatures | proved | As C236 without the motion. | as C236; the heights of the points are dropped |
| C239 | Loops are avoided when possible | proved | From the bounded retry loop (C126) and the meaning of loop_detected. | controls and curves come from an oracle |
| C240 | A planned path drives its swaths forward at cruise velocity | proved | A predicate on direction, type and velocity of states is carried through createTurn, the smoothing discretisation and the joining of parts. | the curves come from an oracle that drives forward (Dubins) or either way (Reeds-Shepp); real arithmetic |
| C241 | Connections follow the borders by the shortest way | proved | Invariant of the conversion loop: the route so far is a list of single-swath groups, and each connection is an answer of the graph, which C26 makes a cheapest route; queries do not change the graph. |  |
| C242 | All routes between two points | proved | C18 for indices, and the nodes of the graph are the inserted points up to the hash's equality. |  |
| C243 | Signed distance to a line | proved | Foot of the perpendicular; completing the square. | exact arithmetic |
| C244 | Signed distance with heights | partial (refuted) | Witness: a line of slope 4/3 in height. | FINDING, refuted as stated: the area is taken in the plane but divided by the length in space, so for different heights the result is smaller than both distances. True for equal heights, see signed_distance. |
| C245 | Strips are brought back like swaths | partial (refuted) | Witness: reference point (10, 0). | FINDING, refuted as stated: the overloads for strips do not add the reference point of the field. True for a reference point at the origin (strip_back); prev_crs_objects says exactly what each overload does. |
| C246 | Turns without the cache | proved | The flag is the last one set, by induction over the history; then createTurn calls the generator directly. | the generator is any function of robot, discretization, distance and angles |
| C247 | Costs between swaths and poses | proved | By cases on the path of the swath. | any number type, any cost function |
| C248 | Swath objectives given one cell | proved | The loops are sums; the estimate for width 0 is 0. | exact arithmetic |
| C249 | Moving collections of lines | proved | The size of a collection is 0 exactly when all parts are empty. | any number type |
| C250 | Overloads of planning | proved | From C198 (which options matter). |  |
| C251 | There is a path | proved | Composition: C241 places the connections on base edges, hence in the convex square around the field; turns over at most 2000 km are defined (cache keys fit) and can be resampled, with the invariant that all cached turns are good; then C130 and C199. The Example runs an exhaustive solver on a field of two swaths. |  |
| C252 | Points, states and fields can be exchanged | partial (refuted) | By computation: the moved-from point is read or written in the first assignment of std::swap. | FINDING, refuted as stated: the move constructor of Point leaves a null pointer, and both assignments write through it, so std::swap and std::reverse are undefined for all points, states and fields. Exchanging by copies works, see C253. |
| C253 | Lines, cells and swaths can be exchanged | proved | Loop invariant of std::reverse: both ends are reversed, the middle is untouched. | any number type |
| C254 | Turning swaths | proved | Cases of the two flags. | any point and number type |
| C255 | What moving and assigning leave behind | proved | Cases of the objects. | any number type; what moving leaves in a std::string is left open |
| C256 | A cheapest tour gives a cheapest route | proved | A trip costs what its tour costs: the coverage graph has shortest distances for edges. Every trip gives a tour, entry, middle and exit of each swath in order; the planned trip comes from the cheapest tour and each connection is a cheapest way. | the solver (OR-tools) is assumed to return a cheapest tour here; it is a heuristic |
| C257 | A cheapest tour gives a shortest route, up to rounding | proved | Sum the rounding over the pieces of the connections and apply C256. | distances are real numbers here; the solver is assumed to return a cheapest tour |
| C258 | Cost of a turn | proved | The cost depends only on the normal form; two requests moved onto each other have the same normal form, by uniqueness of angles. | the generator of turns is any function; exact real arithmetic |
| C259 | Costs of turns hardly depend on earlier requests | proved | Where stored turns come from (C54): requests whose numbers differ by less than a thousandth. | exact real arithmetic |
| C260 | Cost of a route with its turns | proved | Without the cache each cost is a function; compare with direct distances (C95) term by term. | exact real arithmetic |
| C261 | Costs are those of the robot that was set | partial (refuted) | Half circles with radius 51 m and 52 m have the same key. | FINDING, refuted as stated: turns are stored under their curvature in thousandths, so after a robot with radius 51 m one with 52 m gets the stored turn, too tight and 3 m too short; stored turns are those of a robot whose curvature differs by less than a thousandth (cached_answer) |
| C262 | Length of a route | proved | OGR's running sum is the length of the line; a line is at least as long as its pieces and, by the triangle inequality, as the distance of two of its points. | the distance is a parameter; where a bound needs it, it is assumed non-negative and to satisfy the triangle inequality |
| C263 | Headland objective | proved | Field arithmetic with the areas of the difference and of the common part. | GDAL's difference and area are parameters; assumed: areas are not negative and the area of the difference and of the common part add up |
| C264 | Headland objective of every field | partial (refuted) | 0/0 in binary64. | FINDING, refuted as stated: for a field without area (an empty F2CCells) the cost is 0/0, not a number; for every other field it holds (headland_objective) |
| C265 | Parts taken by value are safe | proved | Invariant of the heap: addresses are valid and parts have different addresses; every part variable owns its object. |  |
| C266 | Handles to parts | proved | A part keeps its address and its place in its collection under every call but importFromWkt; a handle reads the part with its address among the collections some variable has. | one level of parts: rings inside a cell that is itself a part of a Cells are not followed |
| C267 | The cell where a point is can be kept | partial (refuted) | Two programs: release the collection, replace another part of it. | FINDING, refuted as stated: getCellWherePoint returns a Cell that points into the Cells with an empty destructor, so it dangles once the Cells is gone or gets another part by setGeometry; the exact lifetime is where_part_lifetime |
| C268 | Parts taken by value keep their value | proved | Nobody else has the number of the new object. |  |
| C269 | Collections behave as values when nothing is shared | proved | Simulation: no two variables have the same object, and the objects hold the values. |  |
| C270 | Copies of collections are independent | partial (refuted) | Follow the address of the collection: new for an index in use, the same otherwise. | FINDING, refuted as stated: copies share the OGR object, so addGeometry on one adds to the other, while setGeometry at an index in use changes one only; what each call does to a copy is collection_copies |
| C271 | The best swaths are the best | proved | The grid is finite, so enough turns for each angle are enough for all; then the brute force theorem (C38). | exact arithmetic; clipping and costs are parameters; enough turns of the line loop (they are finite in number for a width above 0) |
| C272 | Setters of a field | proved | Induction over the calls. | positions up to the text round trip |
| C273 | Shortest paths are shortest in distance | partial (refuted) | Each cost is within a unit of 1000 times the distance; compare sums. Counterexample: a flat triangle of 0.9, 0.9 and 1.44 mm. | FINDING, refuted as stated: costs are cut to whole millimetres, so two edges of 0.9 mm cost less than one of 1.44 mm. Proved: the path returned is the shortest up to a millimetre for each of its edges, and twice the distance up to which points are taken to be the same for each edge; two-way graphs, no removal after a query, every distance below INF |
| C274 | Random convex cells are convex | partial (refuted) | Draws are chosen so that four points form a dart with its notch first; exact sines and cosines come from the triangles 3-4-5 and 7-24-25. The collinear triangle is that of C185. | FINDING, refuted as stated: the test does not look at the first vertex, so a dart can be returned; and three points on a line become a cell with undefined coordinates, which passes the test. What is returned: gen_convex (C186); true for triangles with an area |
| C275 | Random triangles | proved | All three corners of a triangle have the same cross product, which is its signed area. | exact arithmetic; the library's area is that of the shoelace formula |
| C276 | How large INF may be | proved | Below the bound the sum of two entries fits; above it the two-node graph is executed by rewriting, comparison by comparison. |  |
| C277 | Fields behave as values as long as no cells are changed in place | proved | One relation says that a function on a field in the heap does what the function on values does, leaves old objects alone and points to its old object or a new one. It is proved for transform, clone and the UTM functions by composing statements, then lifted to programs. | values and exceptions are those of the functions of Field_Model.v and Transform_Model.v, which know nothing of sharing; GDAL transformations are an oracle |
| C278 | Changing cells that nothing else points to is safe | proved | As C277; an in-place change of an object with one owner is an assignment to that owner. |  |
| C279 | What changing shared cells does | proved | Writing to one address of the heap and reading at all others. |  |
| C280 | New fields share nothing, and what shares nothing stays apart | proved | Every statement only stores addresses that it finds in the variables it names, or new ones. |  |
| C281 | A copy of a field is a field of its own | partial (refuted) | Two fields, one copied from the other, executed on the model. | FINDING, refuted as stated: the copy points to the same OGR object, so adding a cell through copy.getField() adds it to the original too. Proved: exactly the variables that share see the change, and clone() gives a field of its own (C280). |
| C282 | Routes behave as values when nothing is shared | proved | No statement stores an address that is already held elsewhere, so every object keeps one place; then C283. |  |
| C283 | Extending a shared route is safe where a new connection begins | proved | Adding points one by one, or from an object that grows meanwhile, equals adding them at once to the last connection; an in-place change of an object with one owner is an assignment to that owner. |  |
| C284 | What adding points to a shared connection does | proved | Adding at once, then writing to one address of the heap and reading at all others. |  |
| C285 | A cloned route shares nothing, and what shares nothing stays apart | proved | Every statement only stores addresses that it finds in the variables it names, or new ones. |  |
| C286 | A copy of a route is a route of its own | partial (refuted) | Two routes, one copied from the other, executed on the model. | FINDING, refuted as stated: the copied route points to the same connections, and addConnection(p) adds to the last one in place, so that r2 = r1; r2.addConnection(p) adds p to r1 too. Proved: exactly the variables that share see the points, and routes that begin a new connection or were cloned are independent (C283, C285). |
| C287 | A route can be given one of its own connections | partial (refuted) | Fill the vector to its capacity with empty connections and swaths; the capacity is arbitrary, so this is an induction. | FINDING, refuted as stated: if a connection has to be added and the vector of connections is full, the argument is a dangling reference and the loop over it is undefined behaviour; for every growth of the vector there is such a program. Proved: exactly then it is undefined, and otherwise the points are added as from a copy. |
| C288 | Convexity does not depend on the place | proved | The angles are computed from differences of points, which a translation keeps. | exact arithmetic; that the area is kept is a hypothesis, which the shoelace formula meets (ring_area_moved) |
| C289 | Random convex fields | proved | Follow the cell through the constructor of Field and apply C288. | exact arithmetic; the text round trip of clone() is exact; the library's area is that of the shoelace formula; cells scaled by infinity are left out, as in C186 |
| C290 | The order does not depend on how the swaths are listed | proved | A list sorted by distinct keys is determined by its elements. |  |
| C291 | The order does not depend on how the swaths are drawn | proved | Orienting a swath gives the same for a swath and its reverse. | of the two ends exactly one is less than the other, after the text round trip of clone() |
| C292 | Ordering forgets earlier orders | proved | The ordered list is a permutation of the input with some swaths reversed (C01), so C290 and C291 apply. | the text round trip of clone() is idempotent |
| C293 | The order of swaths does not depend on their listing even with equal ids | partial (refuted) | Two swaths with number 0 listed in both orders. | FINDING, refuted as stated: swaths with equal ids are left in an order that depends on the input (with a stable sort; with std::sort it is unspecified). Proved for distinct ids (C290). |
| C294 | Swath lines move with the field | proved | The lines depend on the cell only through its extents along and across the angle; under the motion these shift by constants, and the closed form of a line is carried along. | exact real arithmetic; heights of the lines are 0 |
| C295 | Swath lines scale with the field | proved | As C294, with an induction on the rounds of the loop that scales the heights of the lines. | exact real arithmetic |
| C296 | Swath lines of opposite angles | proved | At the opposite angle the extents are negated, so the loop runs over the same heights from the other border. | exact real arithmetic |
| C297 | Swaths move with the field | proved | C294 and an induction over the lines appended as swaths. | exact real arithmetic; clipping (GEOS) is any function that commutes with the motion |
| C298 | The best swaths move with the field | proved | The costs of all angles agree by C297 with no turn, so the search takes the same steps. | exact real arithmetic; clipping and objective are any functions that do not depend on the place |
| C299 | Turning a field by whole steps does not change its best cost | proved | C271 for both cells; the candidates of one are the turned candidates of the other, with indices shifted modulo the number of steps. | exact real arithmetic; clipping and objective are any functions that do not depend on place and heading |
| C300 | The estimated number of swaths moves with the field | proved | The distance of two points across the angle is the difference of their heights in the frame of the angle, which a motion keeps, a half turn negates and a factor scales. | exact real arithmetic |
| C301 | The estimated number of swaths is not too small | proved | The summed distances across are a total variation; going round a closed ring one passes from the lowest to the highest point and back. | exact real arithmetic; the 64-bit index arithmetic of the sum is modelled |
| C302 | The estimated number of swaths rounds up to the number of lines | proved | Total variation of a list that falls, rises and falls again and comes back is twice the extent; C104 gives the number of lines. | exact real arithmetic; the sizes are those for which the wrapped index is right or harmless (see C97) |
| C303 | Half of the angles suffices for the estimate | proved | C300 at opposite angles; the search keeps the first of equal costs. | exact real arithmetic; the parallel loop is any permutation of the indices |
| C304 | What driving the rows of a rectangle costs | proved | Positions by C02/C04/C06, flags alternate by C07, so each change of row stays on one side and its length is the difference of heights. | exact real arithmetic; any legal std::sort; the text round trip of clone() keeps the coordinates of the given swaths |
| C305 | Cost of the boustrophedon and the snake order | proved | C304 with the sums of differences of positions computed by induction. | exact real arithmetic; n at least 2 for the snake order (C03) |
| C306 | The boustrophedon order is cheapest on a rectangle | proved | The distance of points on different rows is at least the difference of heights, by Cauchy's inequality; different rows differ by a width. | exact real arithmetic |
| C307 | Cost of the spiral order | proved | Within a block the differences are 2h-1, ..., 1, between blocks h; induction over the blocks. | exact real arithmetic |
| C308 | A rectangle from field to cost | proved | C35, C104 and C101 give the rows, then C305 and C306. | exact real arithmetic; clipping is any function that cuts level lines through the rectangle at its sides |
| C309 | When the snake order pays | proved | As C304, with the price of each turn in place of its length; sums over the positions by induction. | exact real arithmetic; the price of turns is any function for which it depends on the number of rows passed only |
| C310 | The number of lines in double precision | partial (refuted) | The loop is run on two pairs of doubles; the exact values of the doubles are compared in the reals. The bounds on the error: the exact value of a sum or product of doubles is bounded from the definition of binary_round_aux in the standard library (FloatErr_Proofs), and an induction over the lines adds up the errors. | FINDING, refuted as stated: on height 93 and width 3.1 the loop of swath_generator_base.cpp:51-57 lays 31 lines where 30 reach (the last lies outside the field), on height 4.4 and width 0.2 it lays 22 where the exact values take 23; what holds with doubles, for heights of up to a million widths: the loop ends, the count is right up to a thousandth of a width (so exactly right when the height is not that close to a multiple of the width) and every line is within a thousandth of a width of its place (line_count_float, line_count_float_exact); in exact arithmetic the count is right (line_count) |
| C311 | Long lines through several cells reach all of them | proved | Merging the envelopes of the cells gives the extent of all points; then as for one cell. | exact real arithmetic; cells without points are passed over by the envelope |
| C312 | Every direction of an even division of the turn is tried | partial (refuted) | With exact numbers the quotient is m; the refutation runs the search for m = 25; among the angles tried, induction over std::min_element. | FINDING, refuted as stated: brute_force.cpp:28-29 truncates two_pi / step, and for step = two_pi / 25 the quotient is just below 25, so the last of the 25 angles is never tried; true in exact arithmetic (best_of_all_parts), and among the angles tried the first of the best is returned (best_angle_float); the number of angles is right up to rounding (best_count_float), so at most the last of n is missed (parts_count_float), and they rise and stay below the full turn (angles_tried_float) |
| C313 | The length of a path in double precision | proved | Every addition of doubles errs by half a unit of the last bit (FloatErr_Proofs, from the definition of rounding in the standard library); an induction adds up the errors. | double precision; the operations of doubles as specified in the standard library |
| C314 | The UTM zone of a longitude in double precision | partial (refuted) | The double just west of Greenwich is evaluated; the bound follows from the errors of one sum and one quotient (FloatErr_Proofs3), and because doubles next to -180 are at least 2^-47 away from it. | FINDING, refuted as stated: transformation.cpp:189 adds 180 before dividing, and -2^-60, just west of Greenwich, gets zone 31; up to 10^-12 degrees the zone is right (utm_zone_float); west of the date line it is zone 0 for six degrees and then undefined |
| C315 | The time a path takes is right up to rounding | proved | Induction over the states with the error of the partial sum as invariant; each step adds the error of one quotient and of one sum. | binary64; velocities are not zero and no time exceeds 2^998 |
| C316 | Normalising an angle twice is normalising it once | partial (refuted) | The witness is evaluated; for other angles the rounded sum lies between one and two moduli, because doubles there are multiples of 2^-50 or 2^-49, so that the second sum is the same double and exact (FloatErr_Proofs5). | FINDING, refuted as stated: -3.3 normalised twice is one bit less than normalised once, since the sum with 2 pi of the second call has fewer bits. For angles that are not negative it holds (mod_2pi_twice_float) |
| C317 | The difference of two angles in double precision | proved | The errors of two differences, one normalisation and one more difference; the range holds because rounding to nearest does not pass a number that fits (rounded_below). | binary64 with std::fmod computed by integers; angles less than 2^999 apart; the full turn is the double nearest to 2 pi |
| C318 | The difference of two angles does not depend on their order | partial (refuted) | The witness is evaluated; the bound follows from C317, which describes the result by distances to multiples of the full turn, in both orders. | FINDING, refuted as stated: between 0 and -3.92 the difference is one bit smaller one way than the other, since mod rounds b - a + 2 pi only for one sign. What holds: the two differ by rounding only (angle_diff_order_float); in exact arithmetic they are equal (C62) |
| C319 | Turning and stepping points in double precision | proved | Errors of differences, products and sums (approx lemmas of Float_Props2) followed through the formula; sine and cosine enter as any doubles within 2^-52 of the exact ones. | binary64; sine and cosine come from the C library and are taken to be right to 2^-52; coordinates and distances up to 2^199 |
| C320 | The closest point of a segment in double precision | proved | The errors of the two scalar products (17 half-ulps of the product of the extents) give the error of the quotient; clamping to 0..1 brings no two numbers further apart; the clamped exact quotient is shown to be the best part by completing the square. | binary64, no fused operations; the bound is for segments at least 1 long along one axis, within 2^200 |
| C321 | Equality of points in double precision | proved | Doubles from 2^-24 up are multiples of 2^-76, and so is the tolerance; a rounded difference below the tolerance would be a whole step of 2^-76 below it, further than rounding can bring it. | binary64; the second theorem shows that the part of 2^-53 is needed: a difference just below the tolerance can be rounded up to it |
| C322 | The order of points in double precision is a strict weak order | partial (refuted) | The comparison of two doubles turns round when they are swapped (cases of SFcompare); with the meaning of < on finite doubles this gives the meaning of ==. | FINDING, refuted as stated: a point with NaN as x is equivalent to points that are ordered. Proved: finite points are ordered by x, then y (both zeros equal), hence all four laws there; irreflexive and asymmetric on all doubles. Transitivity on points with NaN or infinite coordinates is not proved. |

## 6. Axioms per theorem

As printed by `Print Assumptions` beneath each theorem.  Letters: `-` closed under the
global context; `D` ClassicalDedekindReals.sig_forall_dec; `N`
ClassicalDedekindReals.sig_not_dec; `E` FunctionalExtensionality.functional_extensionality_dep;
`C` Classical_Prop.classic; `P` primitive floats and 63-bit integers (types and operations
of the kernel); `F` axioms of the standard library that specify them (FloatAxioms).

* `Alias_Props`: copy_independent_refuted (-), values_without_copies (-), clone_apart (-), values_when_unshared (-), groups_stay_apart (-), cells_clone (-), reverse_shared (-), move_shared (-), ordering_leaves_input (-)
* `Angle_Props`: mod_2pi_normalises (DEN), angle_continuity_refuted (DEN), angle_continuity (CDEN), angle_continuity_vector (CDEN), angle_difference_metric (DEN), angle_average_half (DEN), rotation_rigid (DEN), closest_single_point_refuted (DEN), closest_sloped_refuted (DEN), closest_in_segment (DEN), closest_on_line (DEN), closest_on_border (DEN), closest_on_borders (DEN), angle_errors (CDEN), intersection_on_both (DEN), polar_round_trip (CDEN), point_angle_defined (CDEN), point_angle_half_way (CDEN), atan2_principal (CDEN), turn_angle (CDEN)
* `Angle_Props2`: angle_continuity_limits (DEN)
* `Angle_Props3`: mod_float (DEFP), mod_2pi_float (DEFP), mod_2pi_twice_float (DEFP), mod_2pi_twice_float_refuted (DEP)
* `Angle_Props4`: mod_not_finite (DEFP)
* `Angle_Props5`: angle_diff_float (DEFP), angle_diff_order_float (DEFP), angle_diff_order_float_refuted (DEP)
* `Best_Props`: best_swaths (DEN), best_swaths_fast (DEN), best_swaths_of_cells (DEN), generator_settings (DEN)
* `Best_Props2`: best_of_all_parts_refuted (P), best_of_all_parts (DEN), best_angle_float (DEP)
* `Best_Props3`: best_count_float (DEFP), parts_count_float (DEFP)
* `Best_Props4`: angles_tried_float (DEFP)
* `Border_Props`: convex_refuted (CDEN), convex_straight_refuted (CDEN), convex_test (CDEN), line_until_border (DEN), cell_at_point (DEN), convex_accepts (CDEN), convex_with_start (CDEN), convex_refuses (CDEN), ray_reaches (DEN), ray_reaches_refuted (DEN)
* `Border_Props2`: ray_reaches_cells (DEN), ray_cells_longer (DEN), ray_without_cells (DEN)
* `Codec_Props`: load_nonfinite_refuted (DEFP), save_load_rounded (DEFP), load_stops (DEFP), save_joins (P), save_load_exact (DEFP), load_appends (P), default_precision_refuted (DEP)
* `Codec_Props2`: load_stops_rounded (DEFP)
* `CompleteTurn_Props`: turn_cost (CDEN), turn_cost_moved (CDEN), turn_planner_set (CDEN), turn_cost_near (CDEN), turn_route_cost (CDEN), turn_cost_robot_refuted (CDEN)
* `Container_Props`: moveTo_refuted (DEN), scale_refuted (DEN), moveTo_exact (DEN), moveTo_ignored (DEN), scale_line (DEN), setGeometry_refuted (DEN), setGeometry_cells_refuted (DEN), setGeometry_mpoint_refuted (DEN), setGeometry_mline (-), setGeometry_cells (-), split_growth_refuted (DEN), split_sequence (DEN), moveTo_all (DEN), scale_points (DEN), scale_cells (DEN), scale_mline (DEN), closeRing_spec (DEN), setGeometry_cell (DEN), setGeometry_line (-), setGeometry_mpoint (-), cells_moved (DEN), cells_moved_refuted (DEN)
* `Container_Props2`: search_limit (DEP), get_geometry_refuted (DEN), get_geometry (-)
* `Container_Props3`: mline_image_exact (-)
* `Curves_Props`: planned_turn (CDEN), turn_contiguous_refuted (CDEN), constrained_turn (CDEN), first_without_loop (DEN), constrained_without_loop (DEN)
* `Decomp_Props`: trapezoid_lines (DEN), split_angle_kept (D), trapezoid_own_cell_refuted (DEN), trapezoid_own_cell (DEN), boustrophedon_lines (DEN), edge_test (DEN), decompose_same_space_refuted (DEN), decompose_space (DEN), decomp_cost_blind (DEN)
* `Drive_Props`: rows_cost (DEN), rows_cost_orders (DEN), boustrophedon_cheapest (DEN), rows_cost_spiral (DEN)
* `Drive_Props2`: rectangle_driven (DEN)
* `Drive_Props3`: rows_cost_turns (DEN)
* `Estimate_Props`: estimate_moved (CDEN), estimate_bounds_lines (CDEN), estimate_exact (CDEN), estimate_best_half (CDEN)
* `Field_Props`: field_clone_refuted (DEN), field_positions (DEN), field_clone_keeps (DEN), epsg_round_trip (DEN), to_string_decimal (-), utm_zone_refuted (DEN), utm_zone_small (DEN), utm_zone (DEN), epsg_reads (-), epsg_anywhere_refuted (-), utm_code (-), utm_defined (-), utm_set_get (DEN), utm_unrecognised_refuted (-), field_first_empty_refuted (DEN), field_border_read (-)
* `Field_Props2`: epsg_bad_start (-), field_setters (DEN), setters_and_positions (DEN)
* `Float_Props`: intersection_utm_refuted (DENP), directions_lost_refuted (P), default_directions (P)
* `Float_Props2`: intersection_float (DEFNP)
* `Float_Props3`: turn_float (DEFNP), step_float (DEFNP)
* `Float_Props4`: closest_float (DEFNP)
* `Float_Props5`: closest_one_point_float (DEFNP)
* `Float_Props6`: equal_float (DEFNP), equal_float_margin_needed (DENP)
* `Float_Props7`: less_float (DEFNP), less_float_refuted (P), less_float_any (FP)
* `Graph2D_Props`: point_index_bijection (-), point_index_stable (-), point_key_refuted (P), point_nodes_order_refuted (P), grid_points_equal (DEN), point_shortest_path (-)
* `Graph2D_Props2`: point_all_paths (-)
* `Graph2D_Props3`: shortest_in_metres_refuted (DEN), shortest_in_metres (DEN)
* `Graph_Props`: shortest_cost_minimal (-), history_cost_correct (-), shortest_path_correct (-), path_matrix_correct (-), history_removal_refuted (-), history_answers_fresh (-), path_query_safe_refuted (-), path_query_safe_iff (-), all_simple_paths (-), history_edges_exact (-), remove_exact (-), add_exact (-)
* `Graph_Props2`: inf_bound_sharp (-)
* `Holder_Props`: field_values (DEN), field_values_careful (DEN), field_edit_exact (DEN), field_made_anew (DEN), field_groups (DEN), transform_empty_shares (DEN), field_copy_refuted (DEN)
* `Measures_Props`: route_total_length (DEN), headland_objective (DEN), headland_no_area_refuted (P)
* `Moves_Props`: swap_refuted (DEN), swap_undefined (-), reverse_undefined (-), moved_point (-), swaths_exchanged (-), points_exchanged (-), points_copied (-), points_accessed (-), objects_moved (-)
* `Objective_Props`: route_cost_is_length (DEN), route_cost_misses_jump_refuted (DEN), route_cost_deficit (DEN), overlap_pairs_refuted (DEN), overlap_cost_exact (DEN), overlap_cost_bound (DEN), nsm_cost_refuted (CDEN), nsm_cost_exact (CDEN), nsm_cost_good_sizes (CDEN), field_coverage_empty_refuted (DEN), swath_objectives_additive (DEN), field_objectives_defined (DEN), signed_cost_exact (DEN), signed_cost_order (DEN), signed_cost_optimum (DEN), headland_cost_share (DEN), swath_end_angles (DEN)
* `Objective_Props2`: pose_costs (-), connection_costs (-), cell_objectives (DEN)
* `Ogr_Props`: append_collection_refuted (DEN), append_curves (-), swaths_lost_refuted (DEN), lines_inside (DEN), lines_clipped (DEN), null_geometry (-), line_until_border_lost_refuted (DEN), cells_of_collection_refuted (DEN), cells_of_geometry (-), cell_of_geometry (-), ring_band (DEN), ring_band_empty (-), line_segments (-), no_segments_refuted (DEN), part_at (-), end_angles (-), ring_added (-), rings_of_cells (-), lines_added (-), ring_added_open_refuted (DEN)
* `Parser_Props`: gml_text (-), gml_text_any (-), replace_all (-), replace_all_total (-), gml_import (DEN), gml_no_document (DEN), gml_shape_refuted (DEN), gml_whitespace_refuted (-), gml_two_blanks_refuted (-), json_cell (DEN), json_first_cell (DEN), json_position_refuted (DEN), json_fields (DEN), json_fields_name (DEN), json_geometry_refuted (DEN), json_swaths (DEN), json_swaths_width (DEN), json_strips (DEN)
* `Parser_Props2`: json_point_cases (DEN), json_cell_defined (DEN), json_cell_scalar (DEN), json_fields_defined (DEN), json_fields_none (DEN), json_swath_number (DEN)
* `Parts_Props`: parts_by_value_safe (-), part_lifetime (-), part_view (-), part_handle (-), part_outlives_refuted (-), where_part_lifetime (-), part_value_kept (-), collections_as_values (-), collection_copy_refuted (-), collection_copies (-)
* `PathPlanning_Props`: planned_swaths (CDEN), planned_route (CDEN), plan_connection_only_refuted (CDEN), plan_defined (CDEN), simplified_connection (CDEN), exit_pose_near (CDEN), slight_bend_refuted (CDEN), plan_single_point_refuted (CDEN)
* `Path_Props`: path_additive (DEN), path_at_on_path (DEN), path_at_ends (DEN), path_at_height_refuted (DEN), path_at_length_refuted (P), discretize_swath_keeps (DEN), discretize_swath_height_refuted (DEN), discretize_swath_zero_refuted (DEN), reduce_groups (DEN), reduce_idempotent (-), self_append_refuted (DEN), path_motions (DEN), path_motions_keep (DEN), path_heights (DEN), path_setters (-), path_dims (DEN), append_swath (CDEN), path_to_line (DEN)
* `Path_Props2`: populate_states (CDEN), discretize_empties_refuted (CDEN), discretize_keeps_length (CDEN), populate_other (DEN), populate_negative_refuted (CDEN), populate_negative (CDEN), discretize_short (DEN)
* `Path_Props3`: self_append (-), path_setters_outside (-), state_end (DEN), path_at_empty (-)
* `Path_Props4`: path_states_by_index (-)
* `Path_Props5`: path_length_float (DEFP), path_at_float (DEFP)
* `Path_Props6`: task_time_float (DEFP)
* `Plan_Props`: plan_route_complete (CDEN), plan_route_covers (DEN), plan_always_routes_refuted (CDEN), plan_no_tracks (CDEN), plan_no_width (CDEN), plan_small_field (CDEN), plan_options (CDEN)
* `Plan_Props2`: plan_local_field (CDEN), plan_moved_field (CDEN), plan_origin_field (CDEN), plan_global_field (CDEN), plan_path_options (CDEN), plan_path_drives (CDEN), plan_path_complete (CDEN)
* `Plan_Props3`: plan_no_swaths (CDEN), plan_touching_line_refuted (CDEN)
* `Plan_Props4`: plan_path_states (CDEN)
* `Plan_Props5`: plan_overloads (CDEN)
* `Plan_Props6`: plan_path_defined (CDEN)
* `Plan_Props7`: plan_field_path_defined (CDEN)
* `Point_Props`: point_order (DEN), point_ne (DEN), hash_meaning (DEP)
* `Point_Props2`: signed_distance (DEN), signed_distance_refuted (DEN)
* `RShare_Props`: route_values (-), route_values_careful (-), route_write_exact (-), route_clone_alone (-), route_groups (-), route_copy_refuted (-), route_own_refuted (-), route_own_exact (-)
* `Random_Props`: rand_cell_area_refuted (DEN), rand_cell_area (DEN), rand_cell_refuses (DEN), rand_cell_degenerate_refuted (DEN), rand_cell_proper (DEN), gen_convex (CDEN), gen_convex_large (CDEN), rand_field (DEN), random_ranges (CDEN), exp_positive_refuted (CDEN), random_empty_range (CDEN)
* `Random_Props2`: gen_convex_refuted (CDEN), triangle_convex (CDEN), gen_triangle (CDEN)
* `Random_Props3`: convex_moved (CDEN), gen_convex_field (CDEN)
* `Robot_Props`: robot_widths (DEN), robot_setters (DEN), robot_negative_curvature_refuted (DEN), robot_nan_refuted (P), robot_new (DEN), robot_radius (DEN), robot_radius_refuted (DEN), robot_default_refuted (DEN), robot_set_width_refuted (DEN)
* `RoutePlanner_Props`: coverage_route_complete (-), genRoute_complete (-), transform_short_refuted (-), no_swaths_refuted (-), start_on_swath_refuted (-), start_on_first_swath_refuted (-), planner_inputs_refuted (-), shortest_graph_connects (-)
* `RoutePlanner_Props2`: coverage_costs (-)
* `RoutePlanner_Props3`: connections_shortest (-)
* `RoutePlanner_Props4`: cheapest_tour_cheapest_route (-), cheapest_tour_shortest_route (DE)
* `Route_Props`: route_interleaved (-), route_line_in_order (-), route_end_points (-), route_end_point_refuted (-), add_swath_connects (-), add_swath_graph_other (-), route_clone_exact (-)
* `Sets_Props`: cells_common (CDEN), closed_area (CDEN), cells_rest (CDEN), cells_parted (CDEN), cells_all (CDEN), lines_in_cells (DEN), grown (CDEN), hull_of_cells (DEN), set_op_reported_refuted (DEN), set_op_failed (DEN)
* `Spline_Props`: spline_interpolates_refuted (P), spline_jump_refuted (P), spline_at_knots (DEN), spline_is_natural (DEN), spline_divisors_positive (DEN), spline_unsorted_refuted (DEN), spline_errors (DEN)
* `SwathGen_Props`: lines_leave_no_gap (DEN), generation_terminates_refuted (DEN), nonpositive_width_hangs (DEN), line_count (DEN), overlap_setting_refuted (DEN), overlap_adds_only_outside (DEN), brute_force_best (DEN), brute_force_safe_refuted (DEN), brute_force_safe_iff (DEN), brute_force_outcomes (DEN), headland_rings_refuted (DE), headland_rings_refuted_zero (DE), headland_rings_out2in (DE), headland_rings_in2out (DE), headland_pick_refuted (DE), headland_pick_iff (DE), clipped_lines_cover_refuted (DEN), covered_up_to_half_a_width (DEN), generated_swaths (DEN), generated_swaths_of_cells (DEN)
* `SwathGen_Props2`: headland_area (DE), empty_cell_sizes (DEN)
* `SwathGen_Props3`: swath_lines_moved (DEN), swath_lines_zoomed (DEN), swath_lines_opposite (DEN), swaths_moved (DEN), best_swaths_shifted (DEN), best_swaths_turned (DEN)
* `SwathGen_Props4`: line_count_float_refuted (DEP)
* `SwathGen_Props5`: line_count_float (DEFP), line_count_float_exact (DEFP)
* `Swath_Props`: ordering_permutes (-), ordering_positions (-), snake_safe_refuted (-), ordering_outcomes (-), ordering_succeeds_iff (-), spiral_size_safe_refuted (-), custom_order_exact (-), ordering_flags_alternate (-), geometric_alternation_refuted (-), geometric_alternation_consistent (-), variant_bit1_refuted (-), variant_mod_4 (-), variant_bit1_reverses (-), order_pos_first (-), variant_bit1_custom_no_effect (-), clone_type_refuted (-), clone_fails_refuted (-), clone_exact (-), swath_eq_symmetric_refuted (-), swath_neq_negation_refuted (-), swath_le_ge_refuted (-), swath_cmp_same_direction (-), swath_eq_own_reverse (-), swath_eq_meaning (-), append_lines_ids (-), global_index_is_flatten_index (-), flatten_is_concatenation (-), sizeTotal_is_flatten_size (-), sizeTotal_wraps (-), spiral_size_safe (-), swath_constructors (-)
* `Swath_Props2`: swath_targeted (-)
* `Swath_Props3`: ordering_permuted (-), ordering_redrawn (-), ordering_forgets (-), ordering_permuted_refuted (-)
* `Transform_Props`: transform_undo_refuted (DEN), transform_undo (DEN), spt_meaning (-), spt_small_zone_refuted (-), spt_small_zone (-), utm_zone_choice_refuted (DEN), utm_zone_choice (DEN), transform_moves (DEN), transform_throw_refuted (DEN), transform_throw (DEN)
* `Transform_Props2`: to_utm_and_back (DEN), transform_swath_refuted (DEN), transform_swath (DEN), transform_many (DEN), transform_plain (DEN), transform_path (CDEN), transform_path_backward_refuted (CDEN), transform_path_plain_refuted (DEN), transform_path_plain (DEN), transform_route (DEN), to_utm_local (DEN)
* `Transform_Props3`: epsg_without_number (-), to_utm_undefined_refuted (DEN), utm_name_defined (DEN), transform_null (DEN), no_previous_system (DEN)
* `Transform_Props4`: transform_path_empty (DEN), transform_unknown_refuted (DEN), strip_back_refuted (DEN), strip_back (DEN), prev_crs_objects (DEN)
* `Transform_Props5`: utm_zone_float (DEFP), utm_zone_float_refuted (DEP)
* `Transform_Props6`: utm_zone_west_undefined (DEFP), utm_zone_west_zero (DEFP)
* `Turning_Props`: normal_turn (CDEN), turn_connects (CDEN), cache_transparent_refuted (CDEN), cache_discretization_refuted (CDEN), cached_answer (CDEN), cache_provenance (CDEN), retry_bounded (DEN), loop_meaning (DEN), steer_to_path (DEN), steer_length (DEN), create_turn (CDEN), create_turn_defined (CDEN), cached_turn_zero_radius_refuted (DEN), turn_valid (DEN), steer_direction_refuted (DEN)
* `Turning_Props2`: turn_without_cache (CDEN)
* `Vis_Props`: linspace_even (DEN), colors_even (DEN), default_colors (DEN), single_swath_color_refuted (P), swaths_drawn (-), sbc_drawn (-), route_drawn (-), routes_drawn (-), groups_colors_refuted (P), groups_ignore_colors (-), groups_drawn (-), path_drawn (-), path_curves_refuted (P), point_alpha_refuted (P), point_drawn (-), points_drawn (-), cells_drawn (-), vectors_drawn (-), cells_filled (-), field_filled_refuted (P), cell_filled_refuted (P), filled_outlines (-)
