(** Model of the set operations on cells: what GEOS returns is turned into cells. *)
From Coq Require Import List Arith ZArith Bool.
From Verif Require Import Outcome Num Point_Model Container_Model Ogr_Model.
Import ListNotations.

Section Sets.
  Variable N : Num.
  Notation pt := (point N).
  Notation cell := (list (list pt)).

  (** OGRGeometry::Intersection, Difference, Union and UnionCascaded
      (called in src/fields2cover/types/Cells.cpp:148-178); null when GEOS fails. *)
  Variable Intersection : ogr N -> ogr N -> option (ogr N).
  Variable Difference : ogr N -> ogr N -> option (ogr N).
  Variable Union : ogr N -> ogr N -> option (ogr N).
  Variable UnionCascaded : ogr N -> option (ogr N).
  (** OGRGeometry::ConvexHull (called in src/fields2cover/types/Cells.cpp:145). *)
  Variable ConvexHull : ogr N -> option (ogr N).
  (** OGRBuffer (include/fields2cover/types/Geometry_impl.hpp:291-314). *)
  Variable Buffer : ogr N -> N -> option (ogr N).
  (** OGRGeometry::Buffer, with round corners (called in src/fields2cover/types/Cell.cpp:116). *)
  Variable RoundBuffer : ogr N -> N -> option (ogr N).

  (** destroyResGeom<Cells> (include/fields2cover/types/Geometry_impl.hpp:281-285,
      src/fields2cover/types/Cells.cpp:19-50). *)
  Definition res_cells (g : option (ogr N)) : outcome (list cell) := res_geom N (fun g => Ok (cells_of_ogr N g)) g.
  (** destroyResGeom<Cell> (include/fields2cover/types/Geometry_impl.hpp:281-285,
      src/fields2cover/types/Cell.cpp:18-29). *)
  Definition res_cell (g : option (ogr N)) : outcome cell := res_geom N (cell_of_ogr N) g.

  (** Cells::intersection of two cells (src/fields2cover/types/Cells.cpp:148-150). *)
  Definition cell_cell_intersection (c d : cell) : outcome (list cell) := res_cells (Intersection (GPolygon c) (GPolygon d)).
  (** Cells::intersection with a cell (src/fields2cover/types/Cells.cpp:152-154): called on the cell. *)
  Definition cells_cell_intersection (this : list cell) (c : cell) : outcome (list cell) :=
    res_cells (Intersection (GPolygon c) (GPolygons this)).
  (** Cells::intersection with cells (src/fields2cover/types/Cells.cpp:156-158). *)
  Definition cells_intersection (this c : list cell) : outcome (list cell) := res_cells (Intersection (GPolygons this) (GPolygons c)).
  (** Cells::getCellsInside (src/fields2cover/types/Cells.cpp:216-218). *)
  Definition getCellsInside (this c : list cell) : outcome (list cell) := cells_intersection this c.
  (** Cells::difference with cells (src/fields2cover/types/Cells.cpp:160-162). *)
  Definition cells_difference (this c : list cell) : outcome (list cell) := res_cells (Difference (GPolygons this) (GPolygons c)).
  (** Cells::difference with a cell (src/fields2cover/types/Cells.cpp:164-166). *)
  Definition cells_cell_difference (this : list cell) (c : cell) : outcome (list cell) :=
    res_cells (Difference (GPolygons this) (GPolygon c)).
  (** Cells::unionOp with cells (src/fields2cover/types/Cells.cpp:168-170). *)
  Definition cells_unionOp (this c : list cell) : outcome (list cell) := res_cells (Union (GPolygons this) (GPolygons c)).
  (** Cells::unionOp with a cell (src/fields2cover/types/Cells.cpp:172-174). *)
  Definition cells_cell_unionOp (this : list cell) (c : cell) : outcome (list cell) :=
    res_cells (Union (GPolygons this) (GPolygon c)).
  (** Cells::unionCascaded (src/fields2cover/types/Cells.cpp:176-178). *)
  Definition cells_unionCascaded (this : list cell) : outcome (list cell) := res_cells (UnionCascaded (GPolygons this)).
  (** Cells::convexHull (src/fields2cover/types/Cells.cpp:144-146). *)
  Definition cells_convexHull (this : list cell) : outcome cell := res_cell (ConvexHull (GPolygons this)).
  (** Cells::buffer (src/fields2cover/types/Cells.cpp:242-244). *)
  Definition cells_buffer (this : list cell) (width : N) : outcome (list cell) := res_cells (Buffer (GPolygons this) width).
  (** Cell::buffer of a line (src/fields2cover/types/Cell.cpp:103-105). *)
  Definition line_buffer (l : list pt) (width : N) : outcome cell := res_cell (Buffer (GLine l) width).
  (** Cell::buffer of a point (src/fields2cover/types/Cell.cpp:115-117). *)
  Definition point_buffer (p : pt) (width : N) : outcome cell := res_cell (RoundBuffer (GPoint p) width).

  (** Cells::getLinesInside of a line (src/fields2cover/types/Cells.cpp:208-210,
      include/fields2cover/types/MultiLineString.h:70-78). *)
  Definition cells_getLinesInside1 (this : list cell) (line : list pt) : outcome (list (list pt)) :=
    res_geom N (fun g => Ok (ml_of_ogr N g)) (Intersection (GLine line) (GPolygons this)).
  (** Cells::getLinesInside of lines (src/fields2cover/types/Cells.cpp:212-214,
      include/fields2cover/types/MultiLineString.h:61-68). *)
  Definition cells_getLinesInside (this : list cell) (lines : list (list pt)) : outcome (list (list pt)) :=
    res_geom N (fun g => Ok (ml_of_ogr N g)) (Intersection (GLines lines) (GPolygons this)).
End Sets.
