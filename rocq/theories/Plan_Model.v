(** Model of src/fields2cover.cpp: planning a route or a path in one call, from the
    models of headlands, swaths, routes, paths and coordinate transformations, in
    exact arithmetic. *)
From Coq Require Import String List Arith ZArith Bool Reals.
From Verif Require Import Outcome Num Swath_Model Graph_Model Graph2D_Model Route_Model RoutePlanner_Model
  Point_Model Angle_Model Objective_Model SwathGen_Model Robot_Model Path_Model Turning_Model PathPlanning_Model
  Container_Model Text_Model Field_Model Transform_Model.
Import ListNotations.
Open Scope R_scope.

(** include/fields2cover.h:83-86. *)
Inductive SGAlg : Set := BRUTE_FORCE | GIVEN_ANGLE.
(** include/fields2cover.h:88-94. *)
Inductive SGObjFunc : Set := N_SWATH_MOD | N_SWATH | SWATH_LENGTH | FIELD_COV | OVERLAPS.
(** include/fields2cover.h:99-105. *)
Inductive RPAlg : Set := SHORTEST_ROUTE.
(** include/fields2cover.h:110-115. *)
Inductive PPAlg : Set := DUBINS | DUBINS_CC | REEDS_SHEPP | REEDS_SHEPP_HC.
(** include/fields2cover.h:121-124. *)
Inductive HGAlg : Set := HG_NONE | HG_CONST.
(** include/fields2cover.h:130-134. *)
Inductive DecompAlg : Set := DECOMP_NONE.

(** include/fields2cover.h:136-150. *)
Record options : Type := mkOptions {
  o_decomp_alg : DecompAlg; o_decomp_angle : R;
  o_hg_alg : HGAlg; o_hg_swaths : Z;
  o_sg_alg : SGAlg; o_sg_obj : SGObjFunc; o_sg_angle : R;
  o_rp_alg : RPAlg; o_pp_alg : PPAlg }.

(** The member initialisers of include/fields2cover.h:136-150. *)
Definition default_options : options :=
  mkOptions DECOMP_NONE 0 HG_CONST 3 BRUTE_FORCE N_SWATH_MOD 0 SHORTEST_ROUTE DUBINS.

(** src/fields2cover.cpp:36-56. *)
Definition getSGObjPtr (opt : options) : sg_kind :=
  match o_sg_obj opt with
  | N_SWATH_MOD => SGNSwathModified
  | N_SWATH => SGNSwath
  | SWATH_LENGTH => SGSwathLength
  | FIELD_COV => SGFieldCoverage
  | OVERLAPS => SGOverlaps
  end.

(** isFastCompAvailable (include/fields2cover/objectives/sg_obj/sg_objective.h:23,
    n_swath_modified.h:23). *)
Definition isFastCompAvailable (k : sg_kind) : bool := match k with SGNSwathModified => true | _ => false end.

(** The default step of brute force, one degree
    (include/fields2cover/swath_generator/brute_force.h:29). *)
Definition bf_step : R := PI / 180.

(** int64_t(scale_ * from.distance(to)) with scale_ = 1e3 (src/fields2cover/types/Graph2D.cpp:29,33,
    include/fields2cover/types/Graph2D.h:60); numbers of 64 bits and more, where the
    conversion is undefined, are not told apart. *)
Definition dist_cost (a b : rpoint) : Z := Rtrunc (1000 * p_distance a b).
(** (s.startPoint() + s.endPoint()) * 0.5
    (src/fields2cover/route_planning/route_planner_base.cpp:98). *)
Definition mid_point (a b : rpoint) : rpoint := p_scale RNum (p_add RNum a b) (/ 2).
(** F2CPoint(-1e8, -1e8) (src/fields2cover/route_planning/route_planner_base.cpp:130). *)
Definition far_point : rpoint := mkPoint (N := RNum) (-100000000) (-100000000) 0.

Section Plan.
  (** Cells::buffer (src/fields2cover/types/Cells.cpp:242-244). *)
  Variable buffer : list rcell -> R -> list rcell.
  (** Cell::getLinesInside (src/fields2cover/types/Cell.cpp:180-182). *)
  Variable inside : list (list rpoint) -> rcell -> list (list rpoint).
  (** The text round trip of clone() (include/fields2cover/types/Geometries_impl.hpp:18-23). *)
  Variable wkt : rpoint -> rpoint.
  (** What the objectives ask of the geometry library, see Objective_Model
      (src/fields2cover/objectives/sg_obj/overlaps.cpp:18-26, field_coverage.cpp:18-25,
      src/fields2cover/types/Swath.cpp:60-62). *)
  Variable s_length : rswath -> R.
  Variable cs_area : list rcell -> R.
  Variable covered : list rcell -> rswath -> list rcell.
  Variable intersects : list rcell -> list rcell -> bool.
  Variable inter : list rcell -> list rcell -> list rcell.
  Variable covered_area : list rcell -> list rswath -> rswath -> R.
  (** The rounds granted to the loop that lays lines (Hang when they do not suffice)
      and the order in which brute force fills in the costs, see SwathGen_Model
      (src/fields2cover/swath_generator/swath_generator_base.cpp:53-57,
      src/fields2cover/swath_generator/brute_force.cpp:38-43). *)
  Variable fuel : nat.
  Variable sched : nat -> list nat.
  (** The key comparison and the iteration orders of the hash maps, the nearness test and
      the routing solver, see RoutePlanner_Model
      (include/fields2cover/types/Graph2D.h:56, src/fields2cover/route_planning/route_planner_base.cpp:70-78,152-181). *)
  Variable keq : rpoint -> rpoint -> bool.
  Variable near : rpoint -> rpoint -> rpoint -> bool.
  Variable node_order : list rpoint -> list rpoint.
  Variable edge_order : edges_t -> list (nat * nat).
  Variable solver : graph2d rpoint -> nat -> option (list nat).

  (** computeCostWithMinimizingSign(ang, width, cell) for the one objective with a fast
      version (include/fields2cover/objectives/base_objective.h:25-49,
      src/fields2cover/objectives/sg_obj/n_swath_modified.cpp:11-26). *)
  Definition plan_cost_fast (k : sg_kind) (ang w : R) (c : rcell) : outcome R :=
    do x <- nsm_cost_points RNum nsm_edge ang w c; Ok (with_sign RNum (sg_isMinimizing k) x).

  (** computeCostWithMinimizingSign(cell, swaths)
      (include/fields2cover/objectives/base_objective.h:25-49,
      src/fields2cover/objectives/sg_obj/sg_objective.cpp:52-56). *)
  Definition plan_cost_swaths (k : sg_kind) (c : rcell) (l : list rswath) : outcome R :=
    do x <- sg_cell_swaths RNum (fun c => [c]) s_length cs_area covered intersects inter covered_area (fun _ _ _ => 0) k c l;
    Ok (with_sign RNum (sg_isMinimizing k) x).

  (** SwathGeneratorBase::computeCostOfAngle for a BruteForce made by default, which allows no overlap
      (src/fields2cover/swath_generator/swath_generator_base.cpp:65-72,
      include/fields2cover/swath_generator/swath_generator_base.h:43). *)
  Definition plan_angle_cost (k : sg_kind) (op_width : R) (c : rcell) (ang : R) : outcome R :=
    sg_computeCostOfAngle inside wkt fuel false (isFastCompAvailable k) (plan_cost_fast k) (plan_cost_swaths k) ang op_width c.

  (** SwathGeneratorBase::generateBestSwaths for a cell
      (src/fields2cover/swath_generator/swath_generator_base.cpp:19-22). *)
  Definition generateBestSwaths (k : sg_kind) (op_width : R) (c : rcell) : outcome (list rswath) :=
    do a <- bf_computeBestAngle (plan_angle_cost k op_width c) bf_step sched;
    sg_generateSwaths inside wkt fuel false a op_width c.

  (** SwathGeneratorBase::generateBestSwaths for cells
      (src/fields2cover/swath_generator/swath_generator_base.cpp:24-31). *)
  Definition generateBestSwaths_cells (k : sg_kind) (op_width : R) (polys : list rcell) : outcome (list (list rswath)) :=
    mapM (generateBestSwaths k op_width) polys.

  (** The headland part of planCovRoute: mainland and fast_hl_rings
      (src/fields2cover.cpp:88-104). *)
  Definition plan_headland (rb : robot RNum) (cells : list rcell) (opt : options) : outcome (list rcell * list rcell) :=
    match o_hg_alg opt with
    | HG_NONE => Ok (cells, cells)
    | HG_CONST =>
      let mainland := hl_generateHeadlandArea buffer cells (rb_getWidth RNum rb) (o_hg_swaths opt) in
      do fast_hl_rings <- hl_pick buffer cells (rb_getWidth RNum rb) (o_hg_swaths opt);
      Ok (mainland, fast_hl_rings)
    end.

  (** The swath part of planCovRoute (src/fields2cover.cpp:106-116). *)
  Definition plan_swaths (rb : robot RNum) (mainland : list rcell) (opt : options) : outcome (list (list rswath)) :=
    match o_sg_alg opt with
    | BRUTE_FORCE => generateBestSwaths_cells (getSGObjPtr opt) (rb_getCovWidth RNum rb) mainland
    | GIVEN_ANGLE => sg_generateSwaths_cells inside wkt fuel false (o_sg_angle opt) (rb_getCovWidth RNum rb) mainland
    end.

  (** rp.genRoute(fast_hl_rings, swaths) of a RoutePlannerBase without start/end point
      (src/fields2cover.cpp:117-118, include/fields2cover/route_planning/route_planner_base.h:39-42). *)
  Definition plan_genRoute (rings : list rcell) (sbc : list (list rswath)) : outcome (route rpoint R) :=
    genRoute (p_default RNum) w_nonpos 0 wkt keq dist_cost mid_point far_point
      (fun p => cells_closestPointOnBorderTo p rings) near node_order edge_order solver None (concat rings) sbc true.

  (** src/fields2cover.cpp:86-119. *)
  Definition planCovRoute (rb : robot RNum) (cells : list rcell) (opt : options) : outcome (route rpoint R) :=
    do h <- plan_headland rb cells opt;
    do swaths <- plan_swaths rb (fst h) opt;
    plan_genRoute (snd h) swaths.

  (** src/fields2cover.cpp:81-84; Cells(cell) holds the one cell
      (src/fields2cover/types/Cells.cpp:53-55). *)
  Definition planCovRoute_cell (rb : robot RNum) (cell : rcell) (opt : options) : outcome (route rpoint R) :=
    planCovRoute rb [cell] opt.

  (** The coordinate transformations, see Transform_Model
      (src/fields2cover/utils/transformation.cpp:278). *)
  Variable mk : sptref -> sptref -> outcome (rpoint -> rpoint).

  (** The copy of the field that is planned on (src/fields2cover.cpp:128-131 and 156-159;
      is_etrs89_opt is true by default, include/fields2cover/utils/transformation.h:41). *)
  Definition plan_field (f : rfield) (local_crs : bool) : outcome rfield :=
    do c <- field_clone RNum wkt f;
    if local_crs then Ok c
    else let r := transformToUTM mk wkt c true in do _ <- snd r; Ok (fst r).

  (** src/fields2cover.cpp:126-134. *)
  Definition planCovRoute_field (rb : robot RNum) (f : rfield) (opt : options) (local_crs : bool) : outcome (route rpoint R) :=
    do field_c <- plan_field f local_crs;
    do route <- planCovRoute rb (f_cells field_c) opt;
    if local_crs then Ok route else route_toPrevCRS mk wkt route field_c.

  (** src/fields2cover.cpp:121-124. *)
  Definition planCovRoute_field_default (rb : robot RNum) (f : rfield) (local_crs : bool) : outcome (route rpoint R) :=
    planCovRoute_field rb f default_options local_crs.

  (** The turn planners chosen by getPPTurningBasePtr (src/fields2cover.cpp:58-75), each
      made by default, by their createSimpleTurn; and the end of a clothoid, see
      PathPlanning_Model (src/fields2cover/path_planning/path_planning.cpp:94-102). *)
  Variable simple_turn : PPAlg -> robot RNum -> R -> R -> R -> R -> outcome (list rstate).
  Variable clothoid : R -> R -> R * R * R.

  (** PathPlanning::planPath with the turn planner of the options
      (src/fields2cover.cpp:58-75,138-139,144-145,160-162). *)
  Definition plan_path (rb : robot RNum) (opt : options) (r : route rpoint R) : outcome (list rstate) :=
    do p <- planPath_route clothoid turner (createTurn (simple_turn (o_pp_alg opt))) turner_new rb r; Ok (fst p).

  (** src/fields2cover.cpp:142-146. *)
  Definition planCovPath (rb : robot RNum) (cells : list rcell) (opt : options) : outcome (list rstate) :=
    do r <- planCovRoute rb cells opt; plan_path rb opt r.

  (** src/fields2cover.cpp:136-140. *)
  Definition planCovPath_cell (rb : robot RNum) (cell : rcell) (opt : options) : outcome (list rstate) :=
    do r <- planCovRoute_cell rb cell opt; plan_path rb opt r.

  (** src/fields2cover.cpp:154-164. *)
  Definition planCovPath_field (rb : robot RNum) (f : rfield) (opt : options) (local_crs : bool) : outcome (list rstate) :=
    do field_c <- plan_field f local_crs;
    do r <- planCovRoute rb (f_cells field_c) opt;
    do path <- plan_path rb opt r;
    if local_crs then Ok path else path_toPrevCRS mk path field_c.

  (** src/fields2cover.cpp:148-151. *)
  Definition planCovPath_field_default (rb : robot RNum) (f : rfield) (local_crs : bool) : outcome (list rstate) :=
    planCovPath_field rb f default_options local_crs.
End Plan.
