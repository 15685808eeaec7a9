(** Specification vocabulary for swath generation, independent of the model. *)
From Coq Require Import List Reals.
From Verif Require Import Num Point_Model Angle_Spec.
Import ListNotations.
Open Scope R_scope.

(** Coordinates in the driving frame: along the direction [angle], and across it. *)
Definition along (angle : R) (p : pt) : R := px p * cos angle + py p * sin angle.
Definition across_of (angle : R) (p : pt) : R := - px p * sin angle + py p * cos angle.

(** [lo] and [hi] are the smallest and largest value of [f] on the points [l]. *)
Definition extent (f : pt -> R) (l : list pt) (lo hi : R) : Prop :=
  (exists p, In p l /\ f p = lo) /\ (exists p, In p l /\ f p = hi) /\ forall p, In p l -> lo <= f p <= hi.

(** [q] is at most [r] away (in the plane) from a point of the polyline [l]. *)
Definition within (r : R) (l : list pt) (q : pt) : Prop :=
  exists s, on_line l s /\ dist2 q s <= r * r.
