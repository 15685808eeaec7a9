(** Specification vocabulary for angles and planar geometry, independent of the
    model's functions. *)
From Coq Require Import List ZArith Reals.
From Verif Require Import Num Point_Model.
Import ListNotations.
Open Scope R_scope.

(** Equal up to full turns. *)
Definition congruent (a b : R) : Prop := exists k : Z, a = b + IZR k * (2 * PI).

(** [d] is the smallest absolute difference of [a] and [b] up to full turns. *)
Definition circular_distance (a b d : R) : Prop :=
  (exists k : Z, d = Rabs (a - b + IZR k * (2 * PI))) /\
  forall k : Z, d <= Rabs (a - b + IZR k * (2 * PI)).

Notation pt := (point RNum).

(** Squared distance in the plane. *)
Definition dist2 (a b : pt) : R :=
  (px a - px b) * (px a - px b) + (py a - py b) * (py a - py b).

(** Squared distance in space. *)
Definition dist3 (a b : pt) : R := dist2 a b + (pz a - pz b) * (pz a - pz b).

(** [q] is on the segment from [a] to [b]. *)
Definition on_segment (a b q : pt) : Prop :=
  exists t : R, 0 <= t <= 1 /\
    px q = px a + t * (px b - px a) /\ py q = py a + t * (py b - py a) /\
    pz q = pz a + t * (pz b - pz a).

(** [q] is on the polyline [l]. *)
Fixpoint on_line (l : list pt) (q : pt) : Prop :=
  match l with
  | a :: ((b :: _) as t) => on_segment a b q \/ on_line t q
  | _ => False
  end.

(** [q] is on the border of one of the rings. *)
Definition on_border (rings : list (list pt)) (q : pt) : Prop :=
  exists r, In r rings /\ on_line r q.

(** All points have the same height. *)
Definition level (l : list pt) : Prop := forall p q, In p l -> In q l -> pz p = pz q.

(** Monotone rounding that keeps 0 (as IEEE rounding does in every mode). *)
Definition rounding (rnd : R -> R) : Prop := rnd 0 = 0 /\ forall x y, x <= y -> rnd x <= rnd y.
