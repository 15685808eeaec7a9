(** Model of the objective functions (src/fields2cover/objectives). *)
From Coq Require Import List Arith ZArith Bool Reals.
From Verif Require Import Outcome Num Swath_Model Route_Model Point_Model Angle_Model.
Open Scope nat_scope.
Import ListNotations.

Section RP.
  Variable N : Num.
  Context {P W : Type}.
  (** The default point (src/fields2cover/types/Swath.cpp:94,101). *)
  Variable p_default : P.
  (** (b - a).getAngleFromPoint() (src/fields2cover/types/Swath.cpp:81,89). *)
  Variable angle : P -> P -> N.
  (** computeCost(p1, p2): a virtual function
      (include/fields2cover/objectives/rp_obj/rp_objective.h:24). *)
  Variable cost2 : P -> P -> N.
  (** computeCost(p1, ang1, p2, ang2): a virtual function
      (include/fields2cover/objectives/rp_obj/rp_objective.h:40-41). *)
  Variable cost4 : P -> N -> P -> N -> N.

  Notation swath := (swath P W).
  Notation zero := (nofZ N 0).
  Notation "x + y" := (nadd N x y).

  (** src/fields2cover/objectives/rp_obj/rp_objective.cpp:16-19. *)
  Definition rp_cost_ang1 (p1 : P) (ang1 : N) (p2 : P) : N := cost2 p1 p2.
  (** src/fields2cover/objectives/rp_obj/rp_objective.cpp:22-25. *)
  Definition rp_cost_ang2 (p1 p2 : P) (ang2 : N) : N := cost2 p1 p2.

  (** src/fields2cover/types/Swath.cpp:77-82; getGeometry throws out_of_range
      when there is only one point (src/fields2cover/types/LineString.cpp:83-90). *)
  Definition sw_getInAngle (s : swath) : outcome N :=
    match sw_path s with
    | [] => Ok (nofZ N (-1))
    | [_] => Throw OutOfRange
    | a :: b :: _ => Ok (angle a b)
    end.

  (** src/fields2cover/types/Swath.cpp:84-90; with one point n - 1 wraps around
      and getGeometry throws. *)
  Definition sw_getOutAngle (s : swath) : outcome N :=
    match rev (sw_path s) with
    | [] => Ok (nofZ N (-1))
    | [_] => Throw OutOfRange
    | b :: a :: _ => Ok (angle a b)
    end.

  (** A sum over consecutive pairs, the accumulator starting at [acc]
      (the loops of src/fields2cover/objectives/rp_obj/rp_objective.cpp:57-59,
      68-70,102-104). *)
  Fixpoint rp_pairs (acc : N) (prev : P) (ps : list P) : N :=
    match ps with
    | [] => acc
    | p :: ps => rp_pairs (acc + cost2 prev p) p ps
    end.

  (** src/fields2cover/objectives/rp_obj/rp_objective.cpp:55-61 (vector) and
      63-72 (MultiPoint): both sum over consecutive pairs. *)
  Definition rp_cost_points (ps : list P) : N :=
    match ps with [] => zero | p :: ps => rp_pairs zero p ps end.

  (** src/fields2cover/objectives/rp_obj/rp_objective.cpp:100-106. *)
  Definition rp_cost_swath (s : swath) : N :=
    match sw_path s with [] => zero | p :: ps => rp_pairs zero p ps end.

  (** src/fields2cover/objectives/rp_obj/rp_objective.cpp:32-34. *)
  Definition rp_cost_swath_point (s : swath) (p : P) : outcome N :=
    do a <- sw_getOutAngle s; Ok (rp_cost_ang1 (swath_endPoint p_default s) a p).

  (** src/fields2cover/objectives/rp_obj/rp_objective.cpp:36-39. *)
  Definition rp_cost_swath_swath (s1 s2 : swath) : outcome N :=
    do a <- sw_getOutAngle s1;
    do b <- sw_getInAngle s2;
    Ok (cost4 (swath_endPoint p_default s1) a (swath_startPoint p_default s2) b).

  (** src/fields2cover/objectives/rp_obj/rp_objective.cpp:41-44. *)
  Definition rp_cost_swath_point_ang (s : swath) (p : P) (ang : N) : outcome N :=
    do a <- sw_getOutAngle s; Ok (cost4 (swath_endPoint p_default s) a p ang).

  (** src/fields2cover/objectives/rp_obj/rp_objective.cpp:46-48. *)
  Definition rp_cost_point_swath (p : P) (s : swath) : outcome N :=
    do b <- sw_getInAngle s; Ok (rp_cost_ang2 p (swath_startPoint p_default s) b).

  (** src/fields2cover/objectives/rp_obj/rp_objective.cpp:50-53. *)
  Definition rp_cost_point_ang_swath (p : P) (ang : N) (s : swath) : outcome N :=
    do b <- sw_getInAngle s; Ok (cost4 p ang (swath_startPoint p_default s) b).

  (** src/fields2cover/objectives/rp_obj/rp_objective.cpp:74-79. *)
  Definition rp_cost_swath_mp (s : swath) (mp : list P) : outcome N :=
    match mp with
    | [] => Ok zero
    | p :: _ => rp_cost_swath_point s p
    end.

  (** src/fields2cover/objectives/rp_obj/rp_objective.cpp:81-86: back() of an
      empty list of swaths is undefined. *)
  Definition rp_cost_swaths_mp (g : list swath) (mp : list P) : outcome N :=
    match mp with
    | [] => Ok zero
    | _ => do s <- vec_back g; rp_cost_swath_mp s mp
    end.

  (** src/fields2cover/objectives/rp_obj/rp_objective.cpp:88-94. *)
  Definition rp_cost_mp_swath (mp : list P) (s : swath) : outcome N :=
    match rev mp with
    | [] => Ok zero
    | p :: _ => rp_cost_point_swath p s
    end.

  (** src/fields2cover/objectives/rp_obj/rp_objective.cpp:96-98: [s[0]] is
      evaluated whether or not the points are empty. *)
  Definition rp_cost_mp_swaths (mp : list P) (g : list swath) : outcome N :=
    do s <- vec_index g 0; rp_cost_mp_swath mp s.

  (** src/fields2cover/objectives/rp_obj/rp_objective.cpp:113-116. *)
  Fixpoint rp_jumps (acc : N) (prev : swath) (g : list swath) : outcome N :=
    match g with
    | [] => Ok acc
    | s :: g => do c <- rp_cost_swath_swath prev s; rp_jumps (acc + c) s g
    end.

  (** src/fields2cover/objectives/rp_obj/rp_objective.cpp:108-118. *)
  Definition rp_cost_swaths (g : list swath) : outcome N :=
    let d := fold_left (fun acc s => acc + rp_cost_swath s) g zero in
    match g with [] => Ok d | s :: g => rp_jumps d s g end.

  (** src/fields2cover/objectives/rp_obj/rp_objective.cpp:128-133, one round. *)
  Definition rp_route_step (r : route P W) (acc : N) (i : nat) : outcome N :=
    do c <- r_getConnection r i;
    do g <- r_getSwaths r i;
    do a <- rp_cost_mp_swaths c g;
    let acc := acc + a in
    if S i <? r_sizeConnections r then
      do c' <- r_getConnection r (S i);
      do b <- rp_cost_swaths_mp g c';
      Ok (acc + b)
    else Ok acc.

  (** src/fields2cover/objectives/rp_obj/rp_objective.cpp:120-135. *)
  Definition rp_cost_route (r : route P W) : outcome N :=
    do d1 <- foldM (fun acc g => do c <- rp_cost_swaths g; Ok (acc + c)) (r_swaths r) zero;
    let d2 := fold_left (fun acc c => acc + rp_cost_points c) (r_conns r) d1 in
    foldM (rp_route_step r) (seq 0 (r_sizeVectorSwaths r)) d2.
End RP.

(** DirectDistPathObj: both virtual functions are the distance
    (src/fields2cover/objectives/rp_obj/direct_dist_path_obj.cpp:11-14 and
    rp_objective.cpp:27-30). *)
Definition direct_cost4 (N : Num) {P : Type} (dist : P -> P -> N) (p1 : P) (a1 : N) (p2 : P) (a2 : N) : N :=
  dist p1 p2.

Section SG.
  Variable N : Num.
  (** Cells, collections of cells, swaths. *)
  Context {C CS S : Type}.
  Notation zero := (nofZ N 0).
  Notation "x + y" := (nadd N x y).

  (** Iterating over a MultiPolygon (include/fields2cover/types/Cells.h:23). *)
  Variable cells_of : CS -> list C.
  (** F2CCells(cell) (src/fields2cover/objectives/sg_obj/overlaps.cpp:12). *)
  Variable single : C -> CS.
  (** Swath::length() (src/fields2cover/types/Swath.cpp:60-62). *)
  Variable s_length : S -> N.
  (** poly.area() (src/fields2cover/objectives/sg_obj/overlaps.cpp:26). *)
  Variable cs_area : CS -> N.
  (** Swath::areaCovered(poly) (src/fields2cover/objectives/sg_obj/overlaps.cpp:19). *)
  Variable covered : CS -> S -> CS.
  (** Geometry::intersects (src/fields2cover/objectives/sg_obj/overlaps.cpp:21). *)
  Variable intersects : CS -> CS -> bool.
  (** Cells::intersection (src/fields2cover/objectives/sg_obj/overlaps.cpp:22). *)
  Variable inter : CS -> CS -> CS.
  (** poly.getCellsInside(buffer(lines, w / 2)).area() for a non-empty list,
      as a function of the polygon, the swaths and the first swath's width
      (src/fields2cover/objectives/sg_obj/field_coverage.cpp:18-24). *)
  Variable covered_area : CS -> list S -> S -> N.
  (** Fast computation for a cell: cost by angle, width and cell
      (include/fields2cover/objectives/sg_obj/sg_objective.h:37). *)
  Variable nsm_cost : N -> N -> C -> N.

  (** The classes of include/fields2cover/objectives/sg_obj: sg_objective.h:21, n_swath.h:20,
      n_swath_modified.h:20, swath_length.h:18, field_coverage.h:20, overlaps.h:19. *)
  Inductive sg_kind : Type :=
  | SGBase | SGNSwath | SGNSwathModified | SGSwathLength | SGFieldCoverage | SGOverlaps.

  (** computeCost(swath): src/fields2cover/objectives/sg_obj/sg_objective.cpp:11-13,
      n_swath.cpp:11-13, swath_length.cpp:11-13. *)
  Definition sg_swath (k : sg_kind) (s : S) : N :=
    match k with
    | SGNSwath | SGNSwathModified => nofZ N 1
    | SGSwathLength => s_length s
    | _ => zero
    end.

  (** computeCost(swaths): src/fields2cover/objectives/sg_obj/sg_objective.cpp:15-19,
      n_swath.cpp:15-17 (size converted to double). *)
  Definition sg_swaths (k : sg_kind) (l : list S) : N :=
    match k with
    | SGNSwath | SGNSwathModified => nofZ N (Z.of_nat (length l))
    | _ => fold_left (fun acc s => acc + sg_swath k s) l zero
    end.

  (** computeCost(swaths by cells): src/fields2cover/objectives/sg_obj/sg_objective.cpp:21-25. *)
  Definition sg_by_cells (k : sg_kind) (d : list (list S)) : N :=
    fold_left (fun acc l => acc + sg_swaths k l) d zero.

  (** computeCost(ang, width, cell): src/fields2cover/objectives/sg_obj/sg_objective.cpp:37-40,
      n_swath_modified.cpp:11-26 (see [nsm_cost_points] below). *)
  Definition sg_angle_cell (k : sg_kind) (ang w : N) (c : C) : N :=
    match k with SGNSwathModified => nsm_cost ang w c | _ => zero end.

  (** computeCost(cell): src/fields2cover/objectives/sg_obj/sg_objective.cpp:27-29. *)
  Definition sg_cell (k : sg_kind) (c : C) : N := sg_angle_cell k zero zero c.

  (** computeCost(cells): src/fields2cover/objectives/sg_obj/sg_objective.cpp:31-35. *)
  Definition sg_cells (k : sg_kind) (cs : CS) : N :=
    fold_left (fun acc c => acc + sg_cell k c) (cells_of cs) zero.

  (** Overlaps::computeCost: src/fields2cover/objectives/sg_obj/overlaps.cpp:18-25,
      one round of the outer loop; the inner loop runs over [j] from i + 1 to
      areas.size() - 1 and indexes [areas] with i and j. *)
  Definition ov_step (poly : CS) (l : list S) (st : list CS * N) (i : nat) : outcome (list CS * N) :=
    do s <- vec_index l i;
    let areas := fst st ++ [covered poly s] in
    do tot <- foldM (fun acc j =>
      do ai <- vec_index areas i;
      do aj <- vec_index areas j;
      Ok (if intersects ai aj then acc + cs_area (inter ai aj) else acc))
      (seq (Datatypes.S i) (length areas - Datatypes.S i)) (snd st);
    Ok (areas, tot).

  (** src/fields2cover/objectives/sg_obj/overlaps.cpp:15-27; [i] counts down from
      swaths.size() - 1 to 0. *)
  Definition ov_cost (poly : CS) (l : list S) : outcome N :=
    do st <- foldM (ov_step poly l) (rev (seq 0 (length l))) ([], zero);
    Ok (ndiv N (snd st) (cs_area poly)).

  (** src/fields2cover/objectives/sg_obj/field_coverage.cpp:16-26: [swaths[0]] is
      undefined for an empty list. *)
  Definition fc_cost (poly : CS) (l : list S) : outcome N :=
    do s <- vec_index l 0; Ok (ndiv N (covered_area poly l s) (cs_area poly)).

  (** computeCost(cells, swath) and (cell, swath):
      src/fields2cover/objectives/sg_obj/sg_objective.cpp:42-50. *)
  Definition sg_cells_swath (k : sg_kind) (cs : CS) (s : S) : N := sg_cells k cs + sg_swath k s.
  (** See [sg_cells_swath] (src/fields2cover/objectives/sg_obj/sg_objective.cpp:42-45). *)
  Definition sg_cell_swath (k : sg_kind) (c : C) (s : S) : N := sg_cell k c + sg_swath k s.

  (** computeCost(cells, swaths): src/fields2cover/objectives/sg_obj/sg_objective.cpp:65-69,
      overridden in field_coverage.cpp:16-26 and overlaps.cpp:15-27. *)
  Definition sg_cells_swaths (k : sg_kind) (cs : CS) (l : list S) : outcome N :=
    match k with
    | SGFieldCoverage => fc_cost cs l
    | SGOverlaps => ov_cost cs l
    | _ => Ok (fold_left (fun acc s => acc + sg_cells_swath k cs s) l zero)
    end.

  (** computeCost(cell, swaths): src/fields2cover/objectives/sg_obj/sg_objective.cpp:52-56,
      overridden in field_coverage.cpp:11-14 and overlaps.cpp:11-13. *)
  Definition sg_cell_swaths (k : sg_kind) (c : C) (l : list S) : outcome N :=
    match k with
    | SGFieldCoverage => fc_cost (single c) l
    | SGOverlaps => ov_cost (single c) l
    | _ => Ok (fold_left (fun acc s => acc + sg_cell_swath k c s) l zero)
    end.

  (** computeCost(cells, swaths by cells): src/fields2cover/objectives/sg_obj/sg_objective.cpp:71-75. *)
  Definition sg_cells_by_cells (k : sg_kind) (cs : CS) (d : list (list S)) : outcome N :=
    foldM (fun acc l => do c <- sg_cells_swaths k cs l; Ok (acc + c)) d zero.

  (** computeCost(cell, swaths by cells): src/fields2cover/objectives/sg_obj/sg_objective.cpp:58-62. *)
  Definition sg_cell_by_cells (k : sg_kind) (c : C) (d : list (list S)) : outcome N :=
    foldM (fun acc l => do x <- sg_cell_swaths k c l; Ok (acc + x)) d zero.
End SG.

Section NSM.
  Variable N : Num.
  Context {P : Type}.
  Notation zero := (nofZ N 0).
  Notation "x + y" := (nadd N x y).
  (** p.distance(p_1) * fabs(sin(ang - (p - p_1).getAngleFromPoint()))
      as a function of ang, p and p_1
      (src/fields2cover/objectives/sg_obj/n_swath_modified.cpp:21-22). *)
  Variable edge : N -> P -> P -> N.

  (** The unsigned expression (i - 1) % n with 64-bit wrap-around
      (src/fields2cover/objectives/sg_obj/n_swath_modified.cpp:20). *)
  Definition prev_index (n i : nat) : nat :=
    Z.to_nat (((Z.of_nat i - 1) mod 2 ^ 64) mod Z.of_nat n).

  (** src/fields2cover/objectives/sg_obj/n_swath_modified.cpp:18-23: one ring. *)
  Definition nsm_ring (ang : N) (acc : N) (ring : list P) : outcome N :=
    foldM (fun acc i =>
      do p <- vec_at ring i;
      do q <- vec_at ring (prev_index (length ring) i);
      Ok (acc + edge ang p q)) (seq 0 (length ring)) acc.

  (** src/fields2cover/objectives/sg_obj/n_swath_modified.cpp:11-26; the cell is
      the list of its rings, empty when it has none. *)
  Definition nsm_cost_points (ang w : N) (rings : list (list P)) : outcome N :=
    if match rings with [] => true | _ => false end || nleb N w zero then Ok zero
    else
      do t <- foldM (nsm_ring ang) rings zero;
      Ok (ndiv N t (nmul N (nofZ N 2) w)).
End NSM.

(** The summand of src/fields2cover/objectives/sg_obj/n_swath_modified.cpp:21-22 in
    exact arithmetic. *)
Definition nsm_edge (ang : R) (p p_1 : point RNum) : R :=
  (p_distance p p_1 * Rabs (sin (ang - angleFromPoint (p_sub RNum p p_1))))%R.

(** computeCostWithMinimizingSign
    (include/fields2cover/objectives/base_objective.h:25-49): the factor is 1.0 or -1.0. *)
Definition with_sign (N : Num) (minimizing : bool) (cost : N) : N :=
  nmul N (if minimizing then nofZ N 1 else nofZ N (-1)) cost.

(** isMinimizing of the swath objectives
    (include/fields2cover/objectives/base_objective.h:53,
    src/fields2cover/objectives/sg_obj/field_coverage.cpp:28-30). *)
Definition sg_isMinimizing (k : sg_kind) : bool :=
  match k with SGFieldCoverage => false | _ => true end.

(** HGObjective::computeCost (src/fields2cover/objectives/hg_obj/hg_objective.cpp:24-27)
    from the areas of the difference and of the total. *)
Definition hg_cost (N : Num) (area_difference area_total : N) : N :=
  nsub N (nofZ N 1) (ndiv N area_difference area_total).
