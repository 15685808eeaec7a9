(** Model of the length of a route and of the headland objective
    (src/fields2cover/types/Route.cpp, src/fields2cover/objectives/hg_obj). *)
From Coq Require Import List ZArith.
From Verif Require Import Outcome Num Swath_Model Route_Model Objective_Model.
Import ListNotations.

Section RouteLength.
  Variable N : Num.
  Context {P W : Type}.
  (** The planar distance of two points, as added up by GDAL for
      src/fields2cover/types/LineString.cpp:47. *)
  Variable dist : P -> P -> N.

  (** src/fields2cover/types/LineString.cpp:47: OGRLineString::get_Length adds the distances of
      neighbouring points up from the first one on. *)
  Definition ls_length (l : list P) : N :=
    fst (fold_left (fun acc q =>
           (match snd acc with Some p => nadd N (fst acc) (dist p q) | None => fst acc end, Some q))
         l (nofZ N 0, None)).

  (** src/fields2cover/types/Route.cpp:150-152. *)
  Definition r_length (r : route P W) : outcome N :=
    do l <- r_asLineString r; Ok (ls_length l).
End RouteLength.

Section Headland.
  Variable N : Num.
  (** Cell and Cells objects, the conversion of one to the other (src/fields2cover/types/Cells.cpp:53-55),
      and GDAL's difference and area (include/fields2cover/types/Geometries_impl.hpp,
      src/fields2cover/objectives/hg_obj/hg_objective.cpp:26). *)
  Context {cell cells : Type}.
  Variable to_cells : cell -> cells.
  Variable difference : cells -> cells -> cells.
  Variable area : cells -> N.

  (** src/fields2cover/objectives/hg_obj/hg_objective.cpp:24-27. *)
  Definition hg_cells_cells (total rem : cells) : N :=
    hg_cost N (area (difference total rem)) (area total).
  (** src/fields2cover/objectives/hg_obj/hg_objective.cpp:11-15. *)
  Definition hg_cell_cell (total rem : cell) : N := hg_cells_cells (to_cells total) (to_cells rem).
  (** src/fields2cover/objectives/hg_obj/hg_objective.cpp:16-19. *)
  Definition hg_cell_cells (total : cell) (rem : cells) : N := hg_cells_cells (to_cells total) rem.
  (** src/fields2cover/objectives/hg_obj/hg_objective.cpp:20-23. *)
  Definition hg_cells_cell (total : cells) (rem : cell) : N := hg_cells_cells total (to_cells rem).

  (** src/fields2cover/objectives/hg_obj/rem_area.cpp:11-13. *)
  Definition rem_area_isMinimizing : bool := false.
  (** computeCostWithMinimizingSign of RemArea: include/fields2cover/objectives/base_objective.h:25-49. *)
  Definition rem_area_signed (total rem : cells) : N :=
    with_sign N rem_area_isMinimizing (hg_cells_cells total rem).
End Headland.
