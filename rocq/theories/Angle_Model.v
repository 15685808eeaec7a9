(** Model of the angle functions (include/fields2cover/types/Geometry_impl.hpp,
    src/fields2cover/types/Point.cpp, MultiPoint.cpp) and of the closest-point
    functions, over the real numbers. *)
From Coq Require Import List Arith ZArith Reals.
From Verif Require Import Outcome Num Point_Model.
Import ListNotations.
Open Scope R_scope.

(** Truncation towards zero, as in C's fmod
    (include/fields2cover/types/Geometry_impl.hpp:358). *)
Definition Rtrunc (x : R) : Z := if Rle_dec 0 x then Int_part x else (- Int_part (- x))%Z.

(** std::fmod, which is exact in floating point as well
    (include/fields2cover/types/Geometry_impl.hpp:358). *)
Definition Rfmod (a b : R) : R := a - b * IZR (Rtrunc (a / b)).

(** include/fields2cover/types/Geometry_impl.hpp:357-359; [rnd] rounds the
    result of the addition, the only inexact operation. *)
Definition g_mod_rnd (rnd : R -> R) (a b : R) : R := Rfmod (rnd (Rfmod a b + b)) b.

(** include/fields2cover/types/Geometry_impl.hpp:357-359 in exact arithmetic. *)
Definition g_mod (a b : R) : R := g_mod_rnd (fun x => x) a b.

(** include/fields2cover/types/Geometry_impl.hpp:173-176. *)
Definition mod_2pi (val : R) : R := g_mod val (2 * PI).

(** std::round: half away from zero
    (include/fields2cover/types/Geometry_impl.hpp:181). *)
Definition Rround (x : R) : Z :=
  if Rle_dec 0 x then Int_part (x + / 2) else (- Int_part (- x + / 2))%Z.

(** Conversion of a double to int; undefined out of range
    (include/fields2cover/types/Geometry_impl.hpp:183,185-187,190). *)
Definition to_int (z : Z) : outcome Z :=
  if (Z.leb (-2147483648) z && Z.leb z 2147483647)%bool then Ok z else UB.

(** The lambda getNearVal (include/fields2cover/types/Geometry_impl.hpp:182-183). *)
Definition getNearVal (i : Z) (value : R) : outcome R :=
  do k <- to_int i; Ok (IZR k * (2 * PI) + mod_2pi value).

(** The loop of include/fields2cover/types/Geometry_impl.hpp:184-190 over the
    remaining values of i. *)
Fixpoint angCont_loop (val_id : Z) (prev_val val : R) (is : list Z) : outcome R :=
  match is with
  | [] => getNearVal (val_id + 1) val
  | i :: is =>
    do a <- getNearVal (val_id + i + 1) val;
    do b <- getNearVal (val_id + i) val;
    if Rlt_dec (Rabs (b - prev_val)) (Rabs (a - prev_val)) then Ok b
    else angCont_loop val_id prev_val val is
  end.

(** include/fields2cover/types/Geometry_impl.hpp:178-191. *)
Definition getAngContinuity (prev_val val : R) : outcome R :=
  angCont_loop (Rround (prev_val / (2 * PI))) prev_val val [-2; -1; 0]%Z.

(** include/fields2cover/types/Geometry_impl.hpp:197-199: the entries after the
    first, [prev] being res[i - 1]. *)
Fixpoint angCont_from (prev : R) (vals : list R) : outcome (list R) :=
  match vals with
  | [] => Ok []
  | v :: vals =>
    do r <- getAngContinuity prev v;
    do rest <- angCont_from r vals;
    Ok (r :: rest)
  end.

(** include/fields2cover/types/Geometry_impl.hpp:193-201; [val[0]] of an empty
    vector is undefined. *)
Definition getAngContinuity_vec (vals : list R) : outcome (list R) :=
  match vals with
  | [] => UB
  | v :: vals => do rest <- angCont_from v vals; Ok (v :: rest)
  end.

(** include/fields2cover/types/Geometry_impl.hpp:203-207. *)
Definition getAngleDiffAbs (a b : R) : R := PI - Rabs (mod_2pi (b - a) - PI).

(** include/fields2cover/types/Geometry_impl.hpp:209-219 (abs on doubles). *)
Definition getAngleAvg (a b : R) : R :=
  let ma := mod_2pi a in
  let mb := mod_2pi b in
  if Rlt_dec (Rabs (mb - ma)) PI then / 2 * (ma + mb) else / 2 * (ma + mb) + PI.

(** std::atan2 (used in src/fields2cover/types/Point.cpp:133). *)
Definition Ratan2 (y x : R) : R :=
  if Rlt_dec 0 x then atan (y / x)
  else if Rlt_dec x 0 then
    (if Rle_dec 0 y then atan (y / x) + PI else atan (y / x) - PI)
  else if Rlt_dec 0 y then PI / 2
  else if Rlt_dec y 0 then - (PI / 2)
  else 0.

Notation rpoint := (point RNum).

(** src/fields2cover/types/Point.cpp:132-134. *)
Definition angleFromPoints (this end_ : rpoint) : R :=
  mod_2pi (Ratan2 (p_det RNum this end_) (p_dot RNum this end_)).

(** src/fields2cover/types/Point.cpp:136-138. *)
Definition angleFromPoint (this : rpoint) : R :=
  angleFromPoints (mkPoint (N := RNum) 1 0 0) this.

(** src/fields2cover/types/Point.cpp:140-143. *)
Definition angleFromPoints3 (p1 p2 p3 : rpoint) : R :=
  mod_2pi (angleFromPoint (p_sub RNum p3 p2) - angleFromPoint (p_sub RNum p2 p1)).

(** src/fields2cover/types/Point.cpp:145-147. *)
Definition pointFromAngle (this : rpoint) (angle dist : R) : rpoint :=
  p_getPointFromAngle RNum (cos angle) (sin angle) this dist.

(** src/fields2cover/types/Point.cpp:121-130. *)
Definition rotateFromPoint (this : rpoint) (angle : R) (p_r : rpoint) : rpoint :=
  p_rotateFromPoint RNum (cos angle) (sin angle) this p_r.

(** Planar distance of two points: OGRGeometry::Distance ignores z
    (include/fields2cover/types/Geometry_impl.hpp:137-141). *)
Definition p_distance (a b : rpoint) : R :=
  R_sqrt.sqrt ((px a - px b) * (px a - px b) + (py a - py b) * (py a - py b)).

(** std::min_element: the first of the smallest, as an index; the end of an
    empty range is index 0
    (src/fields2cover/types/LineString.cpp:137, LinearRing.cpp:143). *)
Fixpoint min_from (best : R) (ibest i : nat) (l : list R) : nat :=
  match l with
  | [] => ibest
  | x :: l => if Rlt_dec x best then min_from x i (S i) l else min_from best ibest (S i) l
  end.
(** See [min_from] (src/fields2cover/types/LineString.cpp:137). *)
Definition min_index (l : list R) : nat :=
  match l with [] => 0%nat | x :: l => min_from x 0 1 l end.

(** The points of the loop: src/fields2cover/types/LineString.cpp:133-136 and
    LinearRing.cpp:139-142. *)
Fixpoint closest_candidates (p : rpoint) (l : list rpoint) : list rpoint :=
  match l with
  | a :: ((b :: _) as t) => p_closestPointInSegment RNum p a b :: closest_candidates p t
  | _ => []
  end.

(** The candidate at minimal distance, undefined when there is none
    (src/fields2cover/types/LineString.cpp:137, LinearRing.cpp:143, Cell.cpp:217, Cells.cpp:253). *)
Definition pick_closest (p : rpoint) (ps : list rpoint) : outcome rpoint :=
  vec_index ps (min_index (map (fun q => p_distance q p) ps)).

(** src/fields2cover/types/LineString.cpp:130-138 and LinearRing.cpp:136-144.
    On an empty line size() - 1 wraps around and at(0) throws out_of_range. *)
Definition closestPointTo (p : rpoint) (l : list rpoint) : outcome rpoint :=
  match l with
  | [] => Throw OutOfRange
  | _ => pick_closest p (closest_candidates p l)
  end.

(** src/fields2cover/types/Cell.cpp:210-218; a cell is the list of its rings. *)
Definition cell_closestPointOnBorderTo (p : rpoint) (cell : list (list rpoint)) : outcome rpoint :=
  do ps <- mapM (closestPointTo p) cell; pick_closest p ps.

(** src/fields2cover/types/Cells.cpp:246-254. *)
Definition cells_closestPointOnBorderTo (p : rpoint) (cells : list (list (list rpoint))) : outcome rpoint :=
  do ps <- mapM (cell_closestPointOnBorderTo p) cells; pick_closest p ps.

(** src/fields2cover/types/MultiPoint.cpp:109-116; getGeometry throws
    out_of_range (MultiPoint.cpp:58-64). *)
Definition mp_getInAngle (l : list rpoint) (i : nat) : outcome R :=
  match i with
  | O => Throw InvalidArgument
  | S k => do a <- vec_at l i; do b <- vec_at l k; Ok (angleFromPoint (p_sub RNum a b))
  end.

(** src/fields2cover/types/MultiPoint.cpp:118-125; size() - 1 wraps around for
    an empty collection. *)
Definition mp_getOutAngle (l : list rpoint) (i : nat) : outcome R :=
  if match l with [] => false | _ => Nat.leb (length l - 1) i end then Throw InvalidArgument
  else do a <- vec_at l (S i); do b <- vec_at l i; Ok (angleFromPoint (p_sub RNum a b)).

(** src/fields2cover/types/MultiPoint.cpp:127-138. *)
Definition mp_getPointAngle (l : list rpoint) (i : nat) : outcome R :=
  if Nat.ltb (length l) 2 then Throw InvalidArgument
  else if Nat.eqb i 0 then mp_getOutAngle l i
  else if Nat.eqb i (length l - 1) then mp_getInAngle l i
  else do a <- mp_getInAngle l i; do b <- mp_getOutAngle l i; Ok (getAngleAvg a b).
