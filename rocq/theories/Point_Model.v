(** Model of f2c::types::Point (src/fields2cover/types/Point.cpp) over an
    arbitrary number type. *)
From Coq Require Import List ZArith Bool Floats.
From Verif Require Import Outcome Num.
Import ListNotations.

(** The OGRPoint behind include/fields2cover/types/Point.h:19-31: three
    coordinates.  "Empty" points (default constructed) have coordinates 0 and
    are not told apart here. *)
Record point (N : Num) : Type := mkPoint { px : N; py : N; pz : N }.
Arguments mkPoint {N} px py pz.
Arguments px {N} p.
Arguments py {N} p.
Arguments pz {N} p.

(** size_t(double) (include/fields2cover/types/Point.h:186): truncation towards
    zero, undefined when the truncated value is not representable. *)
Definition float_trunc (x : float) : option Z :=
  match Prim2SF x with
  | S754_zero _ => Some 0%Z
  | S754_finite s m e =>
    let a := if (0 <=? e)%Z then (Z.pos m * 2 ^ e)%Z else (Z.pos m / 2 ^ (- e))%Z in
    Some (if s then (- a)%Z else a)
  | _ => None
  end.

(** Conversion of a double to size_t (include/fields2cover/types/Point.h:186). *)
Definition to_size_t (x : float) : outcome Z :=
  match float_trunc x with
  | Some z => if ((0 <=? z) && (z <? 2 ^ 64))%Z then Ok z else UB
  | None => UB
  end.

Section Point.
  Variable N : Num.
  Notation "x + y" := (nadd N x y).
  Notation "x - y" := (nsub N x y).
  Notation "x * y" := (nmul N x y).
  Notation "x / y" := (ndiv N x y).
  Let zero : N := nofZ N 0.
  Let one : N := nofZ N 1.

  (** Point() (src/fields2cover/types/Point.cpp:14). *)
  Definition p_default : point N := mkPoint zero zero zero.

  (** The literal 1e-7 of src/fields2cover/types/Point.cpp:43-45. *)
  Definition p_eps : N := one / nofZ N 10000000.

  (** src/fields2cover/types/Point.cpp:42-46. *)
  Definition p_eq (a b : point N) : bool :=
    nltb N (nabs N (px a - px b)) p_eps &&
    nltb N (nabs N (py a - py b)) p_eps &&
    nltb N (nabs N (pz a - pz b)) p_eps.

  (** src/fields2cover/types/Point.cpp:48-50. *)
  Definition p_ne (a b : point N) : bool := negb (p_eq a b).

  (** src/fields2cover/types/Point.cpp:52-55. *)
  Definition p_lt (a b : point N) : bool :=
    nltb N (px a) (px b) || (neqb N (px a) (px b) && nltb N (py a) (py b)).

  (** src/fields2cover/types/Point.cpp:57-59. *)
  Definition p_add (a b : point N) : point N := mkPoint (px a + px b) (py a + py b) (pz a + pz b).

  (** src/fields2cover/types/Point.cpp:61-63. *)
  Definition p_sub (a b : point N) : point N := mkPoint (px a - px b) (py a - py b) (pz a - pz b).

  (** src/fields2cover/types/Point.cpp:65-70 and 72-74. *)
  Definition p_scale (a : point N) (b : N) : point N := mkPoint (px a * b) (py a * b) (pz a * b).

  (** src/fields2cover/types/Point.cpp:76-78. *)
  Definition p_dot (a b : point N) : N := px a * px b + py a * py b + pz a * pz b.

  (** src/fields2cover/types/Point.cpp:80-82. *)
  Definition p_divs (a : point N) (b : N) : point N := mkPoint (px a / b) (py a / b) (pz a / b).

  (** src/fields2cover/types/Point.cpp:84-86. *)
  Definition p_det (u v : point N) : N := px u * py v - py u * px v.

  (** src/fields2cover/types/Point.cpp:121-130 with the values of sin and cos
      at the angle as arguments; the two-argument constructor sets z to 0. *)
  Definition p_rotateFromPoint (c s : N) (this p_r : point N) : point N :=
    let x := px this in
    let y := py this in
    let p_x := px p_r - x in
    let p_y := py p_r - y in
    mkPoint (p_x * c - p_y * s + x) (p_x * s + p_y * c + y) zero.

  (** src/fields2cover/types/Point.cpp:145-147, same convention. *)
  Definition p_getPointFromAngle (c s : N) (this : point N) (dist : N) : point N :=
    mkPoint (px this + dist * c) (py this + dist * s) zero.

  (** src/fields2cover/types/Point.cpp:149-154. *)
  Definition p_signedDistance2Segment (this start end_ : point N) : N :=
    let this2start := p_sub start this in
    let end2start := p_sub end_ start in
    nopp N (p_det end2start this2start) / nsqrt N (p_dot end2start end2start).

  (** src/fields2cover/types/Point.cpp:157-167. *)
  Definition p_intersectionOfLines (l1_s l1_e l2_s l2_e : point N) : point N :=
    let den := p_det (p_sub l1_e l1_s) (p_sub l2_e l2_s) in
    if neqb N den zero then l1_s
    else
      let det1 := p_det l1_e l1_s in
      let det2 := p_det l2_e l2_s in
      p_divs (p_sub (p_scale (p_sub l2_e l2_s) det1) (p_scale (p_sub l1_e l1_s) det2)) den.

  (** std::min(a, b) = (b < a) ? b : a and std::max(a, b) = (a < b) ? b : a
      (used in src/fields2cover/types/Point.cpp:174). *)
  Definition std_min (a b : N) : N := if nltb N b a then b else a.
  (** See [std_min] (src/fields2cover/types/Point.cpp:174). *)
  Definition std_max (a b : N) : N := if nltb N a b then b else a.

  (** src/fields2cover/types/Point.cpp:169-175. *)
  Definition p_closestPointInSegment (this seg_s seg_e : point N) : point N :=
    let v := p_sub seg_e seg_s in
    let u := p_sub seg_s this in
    let t := nopp N (p_dot v u) / p_dot v v in
    p_add (p_scale v (std_max zero (std_min one t))) seg_s.
End Point.

(** include/fields2cover/types/Point.h:185-187. *)
Definition p_hash (p : point FNum) : outcome Z :=
  let ten10 := nofZ FNum 10000000000 in
  to_size_t (nadd FNum (nadd FNum (px p) (nmul FNum (py p) ten10))
                       (nmul FNum (pz p) (nmul FNum ten10 ten10))).
