(** Model of the difference of angles with the numbers of the machine
    (include/fields2cover/types/Geometry_impl.hpp). *)
From Coq Require Import Floats.
From Verif Require Import Angle_Model2.

(** boost::math::constants::pi<double>() (include/fields2cover/types/Geometry_impl.hpp:205). *)
Definition float_pi : float := 0x1.921fb54442d18p+1%float.

(** include/fields2cover/types/Geometry_impl.hpp:203-207. *)
Definition float_getAngleDiffAbs (a b : float) : float := (float_pi - abs (float_mod_2pi (b - a) - float_pi))%float.
