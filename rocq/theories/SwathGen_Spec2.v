(** Rigid motions and scalings of the plane, for swath generation; independent of the model. *)
From Coq Require Import List Reals.
From Verif Require Import Num Swath_Model Point_Model Angle_Spec.
Import ListNotations.
Open Scope R_scope.

(** Turn by [t] about the origin, then shift by [(u, v)]; heights stay. *)
Definition rigid (t u v : R) (p : pt) : pt :=
  mkPoint (N := RNum) (px p * cos t - py p * sin t + u) (px p * sin t + py p * cos t + v) (pz p).

(** Scale the plane by [k]; heights stay. *)
Definition zoom (k : R) (p : pt) : pt := mkPoint (N := RNum) (k * px p) (k * py p) (pz p).

(** A swath whose line is moved by [g] and that is otherwise the same. *)
Definition carry (g : pt -> pt) (s : swath pt R) : swath pt R :=
  mkSwath pt R (sw_id s) (map g (sw_path s)) (sw_width s) (sw_dir s) (sw_type s).
