(** Model of the UTM zone with the numbers of the machine
    (src/fields2cover/utils/transformation.cpp). *)
From Coq Require Import ZArith Bool Floats SpecFloat.
From Verif Require Import Outcome.

(** std::floor (src/fields2cover/utils/transformation.cpp:189), as an integer. *)
Definition float_floor (x : float) : option Z :=
  match Prim2SF x with
  | S754_zero _ => Some 0%Z
  | S754_finite s m e =>
    let a := if s then Z.neg m else Z.pos m in
    Some (if (0 <=? e)%Z then (a * 2 ^ e)%Z else (a / 2 ^ (- e))%Z)
  | _ => None
  end.
(** static_cast<size_t>(floor((x + 180) / 6) + 1) (src/fields2cover/utils/transformation.cpp:188-189); undefined
    when the value does not fit.  Simplified: one is added exactly, which differs for
    numbers beyond 2^53 only. *)
Definition utm_zone_f (x : float) : outcome Z :=
  match float_floor ((x + 180) / 6) with
  | Some z => if ((0 <=? z + 1) && (z + 1 <? 2 ^ 64))%Z then Ok (z + 1)%Z else UB
  | None => UB
  end.
