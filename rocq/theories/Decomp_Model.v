(** Model of the decomposition of cells: TrapezoidalDecomp, BoustrophedonDecomp and
    their base class, in exact arithmetic. *)
From Coq Require Import List Arith ZArith Bool Reals.
From Verif Require Import Outcome Num Point_Model Angle_Model SwathGen_Model Container_Model Border_Model.
Import ListNotations.
Open Scope R_scope.

(** Range-for over the parts of a geometry: size() of them (begin() and end() const,
    include/fields2cover/types/Geometries_impl.hpp:157-167). *)
Definition parts {A} (isEmpty : A -> bool) (l : list A) : list A := firstn (coll_size isEmpty l) l.

(** LineString::startPoint (src/fields2cover/types/LineString.cpp:114-116). *)
Definition line_startPoint (l : list rpoint) : outcome rpoint := line_getGeometry RNum l 0.

(** LineString::endPoint (src/fields2cover/types/LineString.cpp:118-120), for lines with
    points: on an empty line size() - 1 is the largest size_t, out of range as well. *)
Definition line_endPoint (l : list rpoint) : outcome rpoint := line_getGeometry RNum l (length l - 1).

(** LineString::length (src/fields2cover/types/LineString.cpp:47): OGR adds the planar
    lengths of the segments. *)
Fixpoint line_length (l : list rpoint) : R :=
  match l with
  | a :: ((b :: _) as t) => p_distance a b + line_length t
  | _ => 0
  end.

(** One turn of the loop of BoustrophedonDecomp::isLinePartOfLinearRing
    (src/fields2cover/decomposition/boustrophedon_decomp.cpp:20-29). *)
Definition matches_edge (ring line : list rpoint) (i : nat) : outcome bool :=
  do a <- line_getGeometry RNum ring i;
  do b <- line_getGeometry RNum ring (i + 1);
  do s <- line_startPoint line;
  do e <- line_endPoint line;
  Ok ((p_eq RNum s a && p_eq RNum e b) || (p_eq RNum s b && p_eq RNum e a)).

(** The loop of BoustrophedonDecomp::isLinePartOfLinearRing
    (src/fields2cover/decomposition/boustrophedon_decomp.cpp:19-33) over the remaining indices. *)
Fixpoint some_edge (ring line : list rpoint) (is : list nat) : outcome bool :=
  match is with
  | [] => Ok false
  | i :: is => do b <- matches_edge ring line i; if b : bool then Ok true else some_edge ring line is
  end.

(** BoustrophedonDecomp::isLinePartOfLinearRing
    (src/fields2cover/decomposition/boustrophedon_decomp.cpp:12-34). *)
Definition isLinePartOfLinearRing (ring line : list rpoint) : outcome bool :=
  if (length ring =? 0)%nat || (length line =? 0)%nat then Ok false
  else some_edge ring line (seq 0 (length ring - 1)).

(** The classes of include/fields2cover/decomposition: trapezoidal_decomp.h:20 and
    boustrophedon_decomp.h:23. *)
Inductive decomp_kind := Trapezoidal | BoustrophedonD.

(** An object of one of these classes: its class and split_angle
    (include/fields2cover/decomposition/trapezoidal_decomp.h:35). *)
Record decomp := mkDecomp { d_kind : decomp_kind; d_angle : R }.

(** A new object (include/fields2cover/decomposition/trapezoidal_decomp.h:35). *)
Definition decomp_new (k : decomp_kind) : decomp := mkDecomp k 0.

(** TrapezoidalDecomp::setSplitAngle (src/fields2cover/decomposition/trapezoidal_decomp.cpp:11-13). *)
Definition setSplitAngle (d : decomp) (ang : R) : decomp := mkDecomp (d_kind d) ang.

(** TrapezoidalDecomp::getSplitAngle (src/fields2cover/decomposition/trapezoidal_decomp.cpp:15-17). *)
Definition getSplitAngle (d : decomp) : R := d_angle d.

Section Decomp.
  (** The geometry library, as in Border_Model: intersection of lines with a cell
      (src/fields2cover/types/Cell.cpp:195). *)
  Variable intersection : list (list rpoint) -> rcell -> list (list rpoint).
  (** Point::touches (src/fields2cover/types/Cells.cpp:230). *)
  Variable touches : rpoint -> rcell -> bool.
  (** Point::within (src/fields2cover/types/Cells.cpp:230). *)
  Variable within : rpoint -> rcell -> bool.

  (** The two lines from a point (src/fields2cover/decomposition/trapezoidal_decomp.cpp:25-28). *)
  Definition trapezoidal_at (ang : R) (cells : list rcell) (lines : list (list rpoint)) (p : rpoint) : list (list rpoint) :=
    coll_addGeometry
      (coll_addGeometry lines (cells_createLineUntilBorder intersection touches within cells p ang))
      (cells_createLineUntilBorder intersection touches within cells p (ang + PI)).

  (** TrapezoidalDecomp::genSplitLines (src/fields2cover/decomposition/trapezoidal_decomp.cpp:19-33). *)
  Definition trapezoidal_genSplitLines (ang : R) (cells : list rcell) : list (list rpoint) :=
    fold_left (fun lines cell =>
      fold_left (fun lines ring => fold_left (trapezoidal_at ang cells) ring lines)
        (parts (line_isEmpty RNum) cell) lines)
      (parts (cell_isEmpty RNum) cells) [].

  (** The while loops of BoustrophedonDecomp::genSplitLines
      (src/fields2cover/decomposition/boustrophedon_decomp.cpp:44-46, 48-50). *)
  Fixpoint slide (fuel : nat) (cell : rcell) (ring : list rpoint) (ang : R) (line : list rpoint) : outcome (list rpoint) :=
    match fuel with
    | O => Hang
    | S fuel =>
      do b <- isLinePartOfLinearRing ring line;
      if b : bool then
        do p <- line_endPoint line;
        slide fuel cell ring ang (cell_createLineUntilBorder intersection cell p ang)
      else Ok line
    end.

  (** The body of the loops over points (src/fields2cover/decomposition/boustrophedon_decomp.cpp:43-55). *)
  Definition boustrophedon_at (fuel : nat) (ang : R) (cell : rcell) (ring : list rpoint) (lines : list (list rpoint)) (p : rpoint)
    : outcome (list (list rpoint)) :=
    do line1 <- slide fuel cell ring ang (cell_createLineUntilBorder intersection cell p ang);
    do line2 <- slide fuel cell ring (ang + PI) (cell_createLineUntilBorder intersection cell p (ang + PI));
    if Rltb (/ 100000) (line_length line1) && Rltb (/ 100000) (line_length line2)
    then Ok (coll_addGeometry (coll_addGeometry lines line1) line2)
    else Ok lines.

  (** BoustrophedonDecomp::genSplitLines
      (src/fields2cover/decomposition/boustrophedon_decomp.cpp:36-60). *)
  Definition boustrophedon_genSplitLines (fuel : nat) (ang : R) (cells : list rcell) : outcome (list (list rpoint)) :=
    foldM (fun lines cell =>
      foldM (fun lines ring => foldM (boustrophedon_at fuel ang cell ring) ring lines)
        (parts (line_isEmpty RNum) cell) lines)
      (parts (cell_isEmpty RNum) cells) [].

  (** genSplitLines, by class (include/fields2cover/decomposition/decomposition_base.h:42-43). *)
  Definition genSplitLines (fuel : nat) (d : decomp) (cells : list rcell) : outcome (list (list rpoint)) :=
    match d_kind d with
    | Trapezoidal => Ok (trapezoidal_genSplitLines (d_angle d) cells)
    | BoustrophedonD => boustrophedon_genSplitLines fuel (d_angle d) cells
    end.

  (** Difference of cells (src/fields2cover/types/Cells.cpp:160-162). *)
  Variable difference : list rcell -> list rcell -> list rcell.
  (** Buffer of a line (include/fields2cover/types/Cells.h:98-104). *)
  Variable buffer_line : list rpoint -> R -> list rcell.
  (** Buffer of a cell (src/fields2cover/types/Cell.cpp:99-101). *)
  Variable buffer_cell : rcell -> R -> outcome rcell.

  (** DecompositionBase::split (src/fields2cover/decomposition/decomposition_base.cpp:17-20). *)
  Definition decomp_split (fuel : nat) (d : decomp) (cells : list rcell) : outcome (list rcell) :=
    do lines <- genSplitLines fuel d cells;
    splitByLines RNum difference buffer_line buffer_cell cells lines.

  (** DecompositionBase::merge (src/fields2cover/decomposition/decomposition_base.cpp:22-25). *)
  Definition decomp_merge (cells : list rcell) : list rcell := cells.

  (** DecompositionBase::decompose (src/fields2cover/decomposition/decomposition_base.cpp:12-15). *)
  Definition decompose (fuel : nat) (d : decomp) (cells : list rcell) : outcome (list rcell) :=
    do c <- decomp_split fuel d cells; Ok (decomp_merge c).
End Decomp.

(** DecompObjective::computeCost (src/fields2cover/objectives/decomp_obj/decomp_objective.cpp:11-13). *)
Definition decomp_cost (cells : list rcell) : R := 0.
