(** Model of the functions of Cell and Cells that look at the border: isConvex,
    createSemiLongLine and createLineUntilBorder, in exact arithmetic. *)
From Coq Require Import List Arith ZArith Bool Reals.
From Verif Require Import Outcome Num Point_Model Angle_Model SwathGen_Model Container_Model.
Import ListNotations.
Open Scope R_scope.

(** ** Convexity *)

(** The lambda getAng (src/fields2cover/types/Cell.cpp:149-154); getGeometry throws
    out_of_range (LinearRing.cpp:88-95). *)
Definition getAng (border : list rpoint) (i : nat) : outcome R :=
  do a <- vec_at border i;
  do b <- vec_at border (i + 1);
  do c <- vec_at border (i + 2);
  Ok (angleFromPoints3 a b c).

(** The loop of src/fields2cover/types/Cell.cpp:156-160 over the remaining indices. *)
Fixpoint convex_loop (border : list rpoint) (inv : bool) (is : list nat) : outcome bool :=
  match is with
  | [] => Ok true
  | i :: is =>
    do a <- getAng border i;
    if Bool.eqb inv (Rltb a PI) then convex_loop border inv is else Ok false
  end.

Section Convex.
  (** OGRPolygon::get_Area (called in src/fields2cover/types/Cell.cpp:142). *)
  Variable area : rcell -> R.

  (** Cell::isConvex (src/fields2cover/types/Cell.cpp:141-162); a polygon without
      rings has a null exterior ring (133). *)
  Definition cell_isConvex (c : rcell) : outcome bool :=
    if Nat.ltb 0 (length c - 1) || Rleb (area c) 0 then Ok false
    else
      match c with
      | [] => UB
      | border :: _ =>
        if Nat.ltb (length border) 2 then Ok false
        else
          do a <- getAng border 0;
          convex_loop border (Rltb a PI) (seq 1 (length border - 2 - 1))
      end.

  (** Cells::isConvex (src/fields2cover/types/Cells.cpp:139-142). *)
  Definition cells_isConvex (c : list rcell) : outcome bool :=
    if negb (Nat.eqb (coll_size (cell_isEmpty RNum) c) 1) then Ok false
    else do x <- coll_getGeometry (cell_isEmpty RNum) c 0; cell_isConvex x.
End Convex.

(** ** Lines to the border *)

(** Cell::createSemiLongLine (src/fields2cover/types/Cell.cpp:164-167). *)
Definition cell_createSemiLongLine (c : rcell) (p : rpoint) (angle : R) : list rpoint :=
  [p; pointFromAngle p angle (cell_getMinSafeLength c)].

(** std::numeric_limits<double>::max() (src/fields2cover/types/Cell.cpp:197). *)
Definition dbl_max : R := (2 - / 2 ^ 52) * 2 ^ 1023.

(** The body of the loop of src/fields2cover/types/Cell.cpp:199-205; the state is
    (best_point, min_dist). *)
Definition nearer (p : rpoint) (st : rpoint * R) (p_l : rpoint) : rpoint * R :=
  let dist := p_distance p_l p in
  if Rltb (/ 100000) dist && Rltb dist (snd st) then (p_l, dist) else st.

Section Ray.
  (** MultiLineString::intersection with a cell (GEOS), called in
      src/fields2cover/types/Cell.cpp:195. *)
  Variable intersection : list (list rpoint) -> rcell -> list (list rpoint).

  (** Cell::createLineUntilBorder (src/fields2cover/types/Cell.cpp:192-208). *)
  Definition cell_createLineUntilBorder (c : rcell) (p : rpoint) (ang : R) : list rpoint :=
    let ray := [cell_createSemiLongLine c p ang] in
    let intersections := intersection ray c in
    let lines := firstn (coll_size (line_isEmpty RNum) intersections) intersections in
    let best_point := fst (fold_left (fun st l => fold_left (nearer p) l st) lines (p, dbl_max)) in
    if p_eq RNum best_point p then [] else [p; best_point].

  (** Point::touches and Point::within (GEOS), called in src/fields2cover/types/Cells.cpp:230. *)
  Variable touches : rpoint -> rcell -> bool.
  Variable within : rpoint -> rcell -> bool.

  (** Cells::getCellWherePoint (src/fields2cover/types/Cells.cpp:228-235). *)
  Definition getCellWherePoint (c : list rcell) (p : rpoint) : rcell :=
    match find (fun x => touches p x || within p x) (firstn (coll_size (cell_isEmpty RNum) c) c) with
    | Some x => x
    | None => []
    end.

  (** Cells::createLineUntilBorder (src/fields2cover/types/Cells.cpp:237-240). *)
  Definition cells_createLineUntilBorder (c : list rcell) (p : rpoint) (ang : R) : list rpoint :=
    cell_createLineUntilBorder (getCellWherePoint c p) p ang.
End Ray.
