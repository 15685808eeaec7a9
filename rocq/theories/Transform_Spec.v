(** Specification vocabulary for coordinate transformations, independent of the
    model's functions. *)
From Coq Require Import Ascii String ZArith Bool Arith Reals List.
From Verif Require Import Num Point_Model Angle_Spec Path_Model Path_Spec.
Import ListNotations.

(** Equal up to the case of ASCII letters. *)
Definition case_of (c d : ascii) : Prop := exists i,
  nth_error (list_ascii_of_string "abcdefghijklmnopqrstuvwxyz") i = Some c /\
  nth_error (list_ascii_of_string "ABCDEFGHIJKLMNOPQRSTUVWXYZ") i = Some d.
Definition same_nocase : list ascii -> list ascii -> Prop :=
  Forall2 (fun c d => c = d \/ case_of c d \/ case_of d c).

(** The UTM zone of a longitude. *)
Definition zone_of (x : R) (z : Z) : Prop :=
  (1 <= z <= 60)%Z /\ (-180 + 6 * (IZR z - 1) <= x < -180 + 6 * IZR z)%R.

(** The sum of two points. *)
Definition plus (p v : pt) : pt := mkPoint (N := RNum) (px p + px v)%R (py p + py v)%R (pz p + pz v)%R.

(** The first point of the first border is [p]. *)
Definition starts_at {A} (c : list (list (list A))) (p : A) : Prop := exists r rs c', c = ((p :: r) :: rs) :: c'.

(** The state [t] has the heading and length of the way to the point of [u]. *)
Definition points_to (t u : rstate) : Prop :=
  px (ps_point u) = (px (ps_point t) + ps_len t * cos (ps_angle t))%R /\
  py (ps_point u) = (py (ps_point t) + ps_len t * sin (ps_angle t))%R /\
  (0 <= ps_len t)%R /\ (0 <= ps_angle t < 2 * PI)%R.
