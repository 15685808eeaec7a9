(** Model of the conversions between the geometries of the library and those that GDAL
    returns, and of the access to parts of geometries. *)
From Coq Require Import List Arith ZArith Bool.
From Verif Require Import Outcome Num Point_Model Container_Model.
Import ListNotations.
Local Open Scope nat_scope.

Section Ogr.
  Variable N : Num.
  Notation pt := (point N).
  Notation line := (list pt).

  (** An OGRGeometry by the types told apart in src/fields2cover/types/MultiLineString.cpp:45-69
      and Cells.cpp:19-50: a point, a line (or ring), points, lines, a polygon (its rings),
      polygons and a collection.  An empty point counts as no points. *)
  Inductive ogr : Type :=
  | GPoint (p : pt)
  | GLine (l : line)
  | GPoints (ps : list pt)
  | GLines (ls : list line)
  | GPolygon (rings : list line)
  | GPolygons (ps : list (list line))
  | GCollection (gs : list ogr).

  (** MultiLineString::append(OGRGeometry) (src/fields2cover/types/MultiLineString.cpp:45-69). *)
  Definition ml_append (data : list line) (g : ogr) : list line :=
    match g with
    | GLine l => if line_isEmpty N l then data else data ++ [l]
    | GLines ls => fold_left (coll_addGeometry (A := line)) ls data
    | GPolygon rings => fold_left (coll_addGeometry (A := line)) rings data
    | GPolygons ps => fold_left (fun d rings => fold_left (coll_addGeometry (A := line)) rings d) ps data
    | _ => data
    end.

  (** MultiLineString(OGRGeometry) (src/fields2cover/types/MultiLineString.cpp:17-19). *)
  Definition ml_of_ogr (g : ogr) : list line := ml_append [] g.

  (** OGRGeometry::Intersection, called in include/fields2cover/types/MultiLineString.h:64,74;
      null when GEOS fails. *)
  Variable geos : list line -> list line -> option ogr.

  (** MultiLineString::intersection (include/fields2cover/types/MultiLineString.h:62-68,71-78)
      with a cell; append dereferences the pointer (MultiLineString.cpp:46). *)
  Definition ml_intersection (lines : list line) (c : list line) : outcome (list line) :=
    match geos lines c with Some g => Ok (ml_of_ogr g) | None => UB end.

  (** Cell::getLinesInside (src/fields2cover/types/Cell.cpp:176-182). *)
  Definition cell_getLinesInside (c : list line) (lines : list line) : outcome (list line) := ml_intersection lines c.

  (** Cells(OGRGeometry) (src/fields2cover/types/Cells.cpp:19-50). *)
  Definition cells_of_ogr (g : ogr) : list (list line) :=
    match g with
    | GPolygon rings => [rings]
    | GPolygons ps => ps
    | GCollection gs => fold_left (fun d g => match g with GPolygon rings => coll_addGeometry d rings | _ => d end) gs []
    | _ => []
    end.

  (** Cell(OGRGeometry) (src/fields2cover/types/Cell.cpp:18-29). *)
  Definition cell_of_ogr (g : ogr) : outcome (list line) :=
    match g with GPolygon rings => Ok rings | _ => Throw InvalidArgument end.

  (** Geometry::destroyResGeom (include/fields2cover/types/Geometry_impl.hpp:281-285) on the
      result of a GEOS call, null when it fails: Cell.cpp:20 and Cells.cpp:20 dereference it. *)
  Definition res_geom {A} (make : ogr -> outcome A) (g : option ogr) : outcome A :=
    match g with Some g => make g | None => UB end.

  (** OGRBuffer of a cell (include/fields2cover/types/Geometry_impl.hpp:291-314). *)
  Variable buffer : list line -> N -> option ogr.
  (** OGRGeometry::Difference of cells and a cell (src/fields2cover/types/Cells.cpp:165). *)
  Variable difference : list (list line) -> list line -> option ogr.
  (** The text round trip of clone() (include/fields2cover/types/Geometries_impl.hpp:18-23). *)
  Variable wkt : pt -> pt.
  (** OGRGeometry::ConvexHull (src/fields2cover/types/Cell.cpp:120). *)
  Variable hull : list line -> option ogr.

  (** Cell::buffer(Cell) (src/fields2cover/types/Cell.cpp:99-101). *)
  Definition cell_buffer (c : list line) (w : N) : outcome (list line) := res_geom cell_of_ogr (buffer c w).

  (** Cells::difference with a cell (src/fields2cover/types/Cells.cpp:164-166). *)
  Definition cells_difference1 (cs : list (list line)) (c : list line) : outcome (list (list line)) :=
    res_geom (fun g => Ok (cells_of_ogr g)) (difference cs c).

  (** Cell(LinearRing) (src/fields2cover/types/Cell.cpp:31-33). *)
  Definition cell_of_ring (r : line) : list line := cell_addRing N wkt [] r.

  (** Cell::buffer(LinearRing) (src/fields2cover/types/Cell.cpp:107-113). *)
  Definition ring_buffer (r : line) (w : N) : outcome (list line) :=
    let cell := cell_of_ring r in
    do b_cell <- cell_buffer cell (nabs N w);
    let b_cell_out := coll_addGeometry [] b_cell in
    do b_cell_in <- cell_buffer cell (nopp N (nabs N w));
    do diff <- cells_difference1 b_cell_out b_cell_in;
    if 0 <? coll_size (cell_isEmpty N) diff then coll_getGeometry (cell_isEmpty N) diff 0 else Ok [].

  (** Cell::convexHull (src/fields2cover/types/Cell.cpp:119-121). *)
  Definition cell_convexHull (c : list line) : outcome (list line) := res_geom cell_of_ogr (hull c).

  (** ** Parts *)

  (** The loop of MultiLineString::getLineSegments
      (src/fields2cover/types/MultiLineString.cpp:132-134) from [i] on; line.size()-1 is a
      size_t.  [Hang] when [fuel] rounds do not suffice. *)
  Fixpoint segments_loop (fuel : nat) (l : line) (i : nat) (res : list line) : outcome (list line) :=
    if (Z.of_nat i <? (Z.of_nat (length l) - 1) mod 2 ^ 64)%Z then
      match fuel with
      | O => Hang
      | S fuel =>
        do a <- line_getGeometry N l i;
        do b <- line_getGeometry N l (i + 1);
        segments_loop fuel l (i + 1) (coll_addGeometry res [a; b])
      end
    else Ok res.
  (** MultiLineString::getLineSegments of a line or ring
      (src/fields2cover/types/MultiLineString.cpp:130-140). *)
  Definition getLineSegments (l : line) : outcome (list line) := segments_loop (length l) l 0 [].

  (** MultiLineString::addGeometry of lines (src/fields2cover/types/MultiLineString.cpp:124-128). *)
  Definition ml_addLines (data lines : list line) : list line :=
    fold_left (coll_addGeometry (A := line)) (firstn (coll_size (line_isEmpty N) lines) lines) data.

  (** Cells::addRing (src/fields2cover/types/Cells.cpp:130-133): the ring is not closed, and
      getGeometryRef is null out of range. *)
  Definition cells_addRing (cs : list (list line)) (i : nat) (r : line) : outcome (list (list line)) :=
    do c <- vec_index cs i;
    vec_set cs i (c ++ [line_clone N wkt r]).

  (** Cell::getInteriorRing (src/fields2cover/types/Cell.cpp:136-138): null out of range. *)
  Definition cell_getInteriorRing (c : list line) (i : nat) : outcome line := vec_index (tl c) i.
  (** Cells::getCellBorder (src/fields2cover/types/Cells.cpp:116-119). *)
  Definition getCellBorder (cs : list (list line)) (i : nat) : outcome line :=
    do c <- vec_index cs i; vec_index c 0.
  (** Cells::getInteriorRing (src/fields2cover/types/Cells.cpp:121-124). *)
  Definition cells_getInteriorRing (cs : list (list line)) (i_cell i_ring : nat) : outcome line :=
    do c <- vec_index cs i_cell; cell_getInteriorRing c i_ring.

  (** Geometries::operator[] and at (include/fields2cover/types/Geometries_impl.hpp:181-189) of
      a collection: the int becomes a size_t.  Indices are compared as numbers. *)
  Definition coll_at {A} (isEmpty : A -> bool) (l : list A) (i : Z) : outcome A :=
    let j := (i mod 2 ^ 64)%Z in
    if (Z.of_nat (coll_size isEmpty l) <=? j)%Z then Throw OutOfRange
    else coll_getGeometry isEmpty l (Z.to_nat j).
  (** Geometries::back (include/fields2cover/types/Geometries_impl.hpp:191-194). *)
  Definition coll_back {A} (isEmpty : A -> bool) (l : list A) : outcome A :=
    coll_at isEmpty l (Z.of_nat (coll_size isEmpty l) - 1).

  (** LineString::endPoint and LinearRing::endPoint (src/fields2cover/types/LineString.cpp:118-120,
      LinearRing.cpp:117-119), and the last point but [k]: getGeometry(size() - 1 - k). *)
  Definition line_fromEnd (l : line) (k : nat) : outcome pt :=
    coll_at (fun _ => false) l (Z.of_nat (length l) - 1 - Z.of_nat k).

  (** (b - a).getAngleFromPoint() (src/fields2cover/types/LineString.cpp:123,127). *)
  Variable angle_of : pt -> N.
  (** LineString::startAngle (src/fields2cover/types/LineString.cpp:122-124). *)
  Definition startAngle (l : line) : outcome N :=
    do b <- line_getGeometry N l 1; do a <- line_getGeometry N l 0; Ok (angle_of (p_sub N b a)).
  (** LineString::endAngle (src/fields2cover/types/LineString.cpp:126-128). *)
  Definition endAngle (l : line) : outcome N :=
    do b <- line_fromEnd l 0; do a <- line_fromEnd l 1; Ok (angle_of (p_sub N b a)).
End Ogr.
Arguments GPoint {N} p.
Arguments GLine {N} l.
Arguments GPoints {N} ps.
Arguments GLines {N} ls.
Arguments GPolygon {N} rings.
Arguments GPolygons {N} ps.
Arguments GCollection {N} gs.
