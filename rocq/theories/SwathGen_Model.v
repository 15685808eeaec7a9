(** Model of swath generation (src/fields2cover/swath_generator), constant headlands
    (src/fields2cover/headland_generator) and the part of src/fields2cover.cpp that
    combines them, in exact arithmetic. *)
From Coq Require Import List Arith ZArith Bool Reals.
From Verif Require Import Outcome Num Swath_Model Point_Model Angle_Model Objective_Model.
Import ListNotations.
Open Scope R_scope.

(** An F2CCell: its rings (include/fields2cover/types/Cell.h:20). *)
Notation rcell := (list (list rpoint)).

(** The bounds of OGREnvelope, used in
    include/fields2cover/types/Geometry_impl.hpp:87-135: smallest and largest
    coordinate over all points, 0 for an empty geometry. *)
Definition env_min (f : rpoint -> R) (c : rcell) : R :=
  match concat c with [] => 0 | p :: ps => fold_left (fun m q => Rmin m (f q)) ps (f p) end.
(** See [env_min] (include/fields2cover/types/Geometry_impl.hpp:94-113). *)
Definition env_max (f : rpoint -> R) (c : rcell) : R :=
  match concat c with [] => 0 | p :: ps => fold_left (fun m q => Rmax m (f q)) ps (f p) end.

(** include/fields2cover/types/Geometry_impl.hpp:115-120. *)
Definition cell_getHeight (c : rcell) : R := env_max py c - env_min py c.
(** include/fields2cover/types/Geometry_impl.hpp:129-135. *)
Definition cell_getMinSafeLength (c : rcell) : R :=
  (env_max px c - env_min px c) + (env_max py c - env_min py c).

(** Point::rotateFromPoint on a cell: include/fields2cover/types/Point.h:105-112. *)
Definition cell_rotate (o : rpoint) (angle : R) (c : rcell) : rcell :=
  map (map (rotateFromPoint o angle)) c.

(** src/fields2cover/types/Cell.cpp:169-174. *)
Definition cell_createStraightLongLine (c : rcell) (p : rpoint) (angle : R) : list rpoint :=
  [pointFromAngle p (PI + angle) (cell_getMinSafeLength c);
   pointFromAngle p angle (cell_getMinSafeLength c)].

(** The loop of src/fields2cover/swath_generator/swath_generator_base.cpp:53-57 over
    a number type: the values of curve_y at which lines are added.  [Hang] when
    [fuel] rounds do not suffice. *)
Fixpoint sg_curve_ys (N : Num) (fuel : nat) (allow_overlap : bool) (field_height op_width curve_y : N)
  : outcome (list N) :=
  if nltb N (nadd N curve_y (if allow_overlap then nofZ N 0
             else nmul N (ndiv N (nofZ N 1) (nofZ N 2)) op_width)) field_height then
    match fuel with
    | O => Hang
    | S fuel =>
      let curve_y := nadd N curve_y op_width in
      do rest <- sg_curve_ys N fuel allow_overlap field_height op_width curve_y;
      Ok (curve_y :: rest)
    end
  else Ok [].

(** The starting value -0.5 * op_width
    (src/fields2cover/swath_generator/swath_generator_base.cpp:51). *)
Definition sg_curve_y0 (N : Num) (op_width : N) : N :=
  nmul N (nopp N (ndiv N (nofZ N 1) (nofZ N 2))) op_width.

(** F2CPoint(0.0, 0.0)
    (src/fields2cover/swath_generator/swath_generator_base.cpp:45,55). *)
Definition origin : rpoint := mkPoint (N := RNum) 0 0 0.

(** src/fields2cover/swath_generator/swath_generator_base.cpp:45-57: the lines laid
    over the cell. *)
Definition sg_lines (fuel : nat) (allow_overlap : bool) (angle op_width : R) (poly : rcell)
  : outcome (list (list rpoint)) :=
  let rot_poly := cell_rotate origin (- angle) poly in
  let field_height := cell_getHeight rot_poly in
  let min_point := mkPoint (N := RNum) (env_min px rot_poly) (env_min py rot_poly) 0 in
  let seed_curve := cell_createStraightLongLine rot_poly min_point 0 in
  do ys <- sg_curve_ys RNum fuel allow_overlap field_height op_width (sg_curve_y0 RNum op_width);
  Ok (map (fun y => map (rotateFromPoint origin angle)
                      (map (fun p => p_add RNum p (mkPoint (N := RNum) 0 y 0)) seed_curve)) ys).

Section Generate.
  (** Cell::getLinesInside (src/fields2cover/types/Cell.cpp:180-182). *)
  Variable inside : list (list rpoint) -> rcell -> list (list rpoint).
  (** The text round trip of clone() (include/fields2cover/types/Geometries_impl.hpp:18-23). *)
  Variable wkt : rpoint -> rpoint.

  (** src/fields2cover/swath_generator/swath_generator_base.cpp:43-62, with
      src/fields2cover/types/Swaths.cpp:111-114; width 0 or less is refused by
      Swath::setWidth (src/fields2cover/types/Swath.cpp:172). *)
  Definition sg_generateSwaths (fuel : nat) (allow_overlap : bool) (angle op_width : R) (poly : rcell)
    : outcome (list (swath rpoint R)) :=
    do paths <- sg_lines fuel allow_overlap angle op_width poly;
    swaths_append_lines (fun w => Rleb w 0) 0 wkt [] (inside paths poly) op_width MAINLAND.

  (** src/fields2cover/swath_generator/swath_generator_base.cpp:33-40. *)
  Definition sg_generateSwaths_cells (fuel : nat) (allow_overlap : bool) (angle op_width : R) (polys : list rcell)
    : outcome (list (list (swath rpoint R))) :=
    mapM (sg_generateSwaths fuel allow_overlap angle op_width) polys.

  (** src/fields2cover/swath_generator/swath_generator_base.cpp:65-72: [fast] is
      isFastCompAvailable(), the two costs are those of the objective (signed). *)
  Definition sg_computeCostOfAngle (fuel : nat) (allow_overlap : bool) (fast : bool)
    (cost_fast : R -> R -> rcell -> outcome R) (cost_swaths : rcell -> list (swath rpoint R) -> outcome R)
    (ang op_width : R) (poly : rcell) : outcome R :=
    if fast then cost_fast ang op_width poly
    else do s <- sg_generateSwaths fuel allow_overlap ang op_width poly; cost_swaths poly s.
End Generate.

(** static_cast<int>(2 pi / step): src/fields2cover/swath_generator/brute_force.cpp:28-29;
    undefined for step 0 (infinity) and out of range. *)
Definition bf_count (step_angle : R) : outcome Z :=
  if Req_EM_T step_angle 0 then UB else to_int (Rtrunc (2 * PI / step_angle)).

(** std::transform (src/fields2cover/swath_generator/brute_force.cpp:38-43) writing
    costs[i] in the order [sched], which for par_unseq is any order of the indices. *)
Definition bf_costs (cost : R -> outcome R) (step_angle : R) (n : nat) (sched : list nat) : outcome (list R) :=
  foldM (fun cs i => do c <- cost (INR i * step_angle); vec_set cs i c) sched (repeat 0 n).

(** src/fields2cover/swath_generator/brute_force.cpp:26-47; a negative size raises
    length_error, an empty [ids] is read out of range. *)
Definition bf_computeBestAngle (cost : R -> outcome R) (step_angle : R) (sched : nat -> list nat) : outcome R :=
  do z <- bf_count step_angle;
  if (z <? 0)%Z then Throw LengthError
  else
    let n := Z.to_nat z in
    do costs <- bf_costs cost step_angle n (sched n);
    do id <- vec_index (seq 0 n) (min_index costs);
    Ok (INR id * step_angle).

Section Headland.
  (** F2CCells and Cells::buffer (src/fields2cover/types/Cells.cpp). *)
  Context {CS : Type}.
  Variable buffer : CS -> R -> CS.

  (** src/fields2cover/headland_generator/constant_headland.cpp:12-15. *)
  Definition hl_generateHeadlands (field : CS) (dist_headland : R) : CS := buffer field (- dist_headland).

  (** src/fields2cover/headland_generator/constant_headland.cpp:17-20. *)
  Definition hl_generateHeadlandArea (field : CS) (swath_width : R) (n_swaths : Z) : CS :=
    buffer field (- swath_width * IZR n_swaths).

  (** src/fields2cover/headland_generator/constant_headland.cpp:31-33: [k] more
      rings, [back] being the last one so far. *)
  Fixpoint hl_outwards (swath_width : R) (back : CS) (k : nat) : list CS :=
    match k with
    | O => []
    | S k => let c := buffer back swath_width in c :: hl_outwards swath_width c k
    end.

  (** src/fields2cover/headland_generator/constant_headland.cpp:22-36. *)
  Definition hl_generateHeadlandSwaths (field : CS) (swath_width : R) (n_swaths : Z) (dir_out2in : bool) : list CS :=
    if dir_out2in then
      map (fun i => buffer field (- swath_width * (INR i + / 2))) (seq 0 (Z.to_nat n_swaths))
    else
      let first := buffer field (- swath_width * (IZR n_swaths - / 2)) in
      first :: hl_outwards swath_width first (Z.to_nat (n_swaths - 1)).

  (** src/fields2cover.cpp:95-103: hl_swaths[floor(0.5 * hg_swaths)]; a negative
      index is out of range. *)
  Definition hl_pick (field : CS) (width : R) (hg_swaths : Z) : outcome CS :=
    let i := (hg_swaths / 2)%Z in
    if (i <? 0)%Z then UB else vec_index (hl_generateHeadlandSwaths field width hg_swaths true) (Z.to_nat i).
End Headland.
