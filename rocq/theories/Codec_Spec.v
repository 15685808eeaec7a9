(** Specification vocabulary for the text format of paths, independent of the model's
    functions. *)
From Coq Require Import Ascii String ZArith Bool Reals Floats SpecFloat List.
From Verif Require Import Outcome Num Point_Model Path_Model.
Import ListNotations.
Local Open Scope R_scope.

(** Powers with integer exponents. *)
Definition pow2 (k : Z) : R := powerRZ 2 k.
Definition pow10 (k : Z) : R := powerRZ 10 k.

(** The number of a double; infinities and NaN have none. *)
Definition sf_value (v : spec_float) (x : R) : Prop :=
  match v with
  | S754_zero _ => x = 0
  | S754_finite s m e => x = (if s then -1 else 1) * IZR (Zpos m) * pow2 e
  | _ => False
  end.
Definition is_value (f : float) (x : R) : Prop := sf_value (Prim2SF f) x.

(** Neither infinite nor NaN. *)
Definition finite (f : float) : Prop := exists x, is_value f x.

(** [y] is [x] rounded to [P] significant decimal digits and then to a double: half a
    unit of the last digit, and half a unit of the last bit. *)
Definition rounded (P : nat) (x y : R) : Prop := exists w,
  Rabs (w - x) <= / 2 * pow10 (1 - Z.of_nat P) * Rabs x /\
  Rabs (y - w) <= Rmax (pow2 (-53) * Rabs w) (pow2 (-1075)).
Definition float_rounded (P : nat) (f g : float) : Prop :=
  exists x y, is_value f x /\ is_value g y /\ rounded P x y.

(** The numbers of a state. *)
Definition numbers (s : pstate FNum) : list float :=
  [px (ps_point s); py (ps_point s); pz (ps_point s); ps_angle s; ps_vel s; ps_len s].
(** The enumerators of a state are small integers. *)
Definition small_codes (s : pstate FNum) : Prop := (Z.abs (ps_dir s) < 1000000 /\ Z.abs (ps_type s) < 1000000)%Z.
(** [t] is [s] with its numbers rounded. *)
Definition state_rounded (P : nat) (s t : pstate FNum) : Prop :=
  Forall2 (float_rounded P) (numbers s) (numbers t) /\ ps_dir t = ps_dir s /\ ps_type t = ps_type s.
