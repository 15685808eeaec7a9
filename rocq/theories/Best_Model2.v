(** Model of the search of the best angle with the numbers of the machine
    (src/fields2cover/swath_generator/brute_force.cpp). *)
From Coq Require Import List Arith ZArith Bool Floats.
From Verif Require Import Outcome Num Point_Model Angle_Model.
Import ListNotations.

(** boost::math::constants::two_pi<double>() (src/fields2cover/swath_generator/brute_force.cpp:29). *)
Definition two_pi_f : float := 0x1.921fb54442d18p+2%float.
(** boost::math::constants::degree<double>(), the default step
    (include/fields2cover/swath_generator/brute_force.h:29). *)
Definition degree_f : float := 0x1.1df46a2529d39p-6%float.
(** static_cast<int>(two_pi / step_angle) (src/fields2cover/swath_generator/brute_force.cpp:28-29);
    undefined out of range. *)
Definition bf_count_f (step_angle : float) : outcome Z :=
  match float_trunc (two_pi_f / step_angle) with Some z => to_int z | None => UB end.
(** i * step_angle (src/fields2cover/swath_generator/brute_force.cpp:35). *)
Definition bf_angle_f (step_angle : float) (i : nat) : float := (float_of_Z (Z.of_nat i) * step_angle)%float.
(** std::min_element (src/fields2cover/swath_generator/brute_force.cpp:45-46): [best] is the
    smallest so far, at [at_], the rest begins at [i]. *)
Fixpoint min_from_f (best : float) (at_ i : nat) (costs : list float) : nat :=
  match costs with
  | [] => at_
  | c :: costs => if (c <? best)%float then min_from_f c i (S i) costs else min_from_f best at_ (S i) costs
  end.
(** src/fields2cover/swath_generator/brute_force.cpp:26-47, the costs computed one after
    the other by a cost function that does not fail; a negative size raises length_error,
    an empty [ids] is read out of range. *)
Definition bf_computeBestAngle_f (cost : float -> float) (step_angle : float) : outcome float :=
  do z <- bf_count_f step_angle;
  if (z <? 0)%Z then Throw LengthError
  else
    let n := Z.to_nat z in
    match map (fun i => cost (bf_angle_f step_angle i)) (seq 0 n) with
    | [] => UB
    | c :: costs => do id <- vec_index (seq 0 n) (min_from_f c 0 1 costs); Ok (bf_angle_f step_angle id)
    end.
