(** Model of the normalisation of angles with the numbers of the machine
    (include/fields2cover/types/Geometry_impl.hpp). *)
From Coq Require Import ZArith Bool Floats SpecFloat.

(** std::fmod (include/fields2cover/types/Geometry_impl.hpp:358): the remainder with the
    sign of the first argument, computed with integers. *)
Definition float_fmod (x y : float) : float :=
  match Prim2SF x, Prim2SF y with
  | S754_finite s mx ex, S754_finite _ my ey =>
    let e := Z.min ex ey in
    let r := (Z.pos mx * 2 ^ (ex - e)) mod (Z.pos my * 2 ^ (ey - e)) in
    SF2Prim (binary_normalize prec emax (if s then - r else r)%Z e s)
  | S754_zero _, S754_finite _ _ _ => x
  | S754_zero _, S754_infinity _ => x
  | S754_finite _ _ _, S754_infinity _ => x
  | _, _ => nan
  end%Z.

(** include/fields2cover/types/Geometry_impl.hpp:357-359. *)
Definition float_mod (a b : float) : float := float_fmod (float_fmod a b + b)%float b.

(** boost::math::constants::two_pi<double>()
    (include/fields2cover/types/Geometry_impl.hpp:175). *)
Definition float_two_pi : float := 0x1.921fb54442d18p+2%float.

(** include/fields2cover/types/Geometry_impl.hpp:173-176. *)
Definition float_mod_2pi (v : float) : float := float_mod v float_two_pi.
