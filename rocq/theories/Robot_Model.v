(** Model of f2c::types::Robot (src/fields2cover/types/Robot.cpp). *)
From Coq Require Import List ZArith Bool String.
From Verif Require Import Outcome Num.

(** include/fields2cover/types/Robot.h:61-78: the members. *)
Record robot (N : Num) : Type := mkRobot {
  rb_name : string; rb_width : N; rb_cov_width : N; rb_cruise : N;
  rb_max_icc : N; rb_diff_curv : N; rb_turn_vel : option N }.
Arguments mkRobot {N}. Arguments rb_name {N}. Arguments rb_width {N}. Arguments rb_cov_width {N}.
Arguments rb_cruise {N}. Arguments rb_max_icc {N}. Arguments rb_diff_curv {N}. Arguments rb_turn_vel {N}.

Section Robot.
  Variable N : Num.
  Let zero := nofZ N 0.
  Let one := nofZ N 1.
  (** The literal 1e-7 (src/fields2cover/types/Robot.cpp:74,78): the quotient rounds
      to the same number. *)
  Definition rb_eps : N := ndiv N one (nofZ N 10000000).

  (** The default arguments of include/fields2cover/types/Robot.h:27-28: the
      coverage width. *)
  Definition rb_default_cov : N := zero.
  (** include/fields2cover/types/Robot.h:28 (max_curv). *)
  Definition rb_default_curv : N := one.
  (** include/fields2cover/types/Robot.h:28 (max_diff_curv, the literal 0.3). *)
  Definition rb_default_diff : N := ndiv N (nofZ N 3) (nofZ N 10).

  (** src/fields2cover/types/Robot.cpp:12-22. *)
  Definition rb_make (width cov_width max_curv max_diff_curv : N) : outcome (robot N) :=
    if nleb N width zero || nltb N cov_width zero then Throw OutOfRange
    else
      let cov := if neqb N cov_width zero then width else cov_width in
      Ok (mkRobot EmptyString width cov one max_curv max_diff_curv None).

  (** src/fields2cover/types/Robot.cpp:24 with the initialisers of
      include/fields2cover/types/Robot.h:64-78. *)
  Definition rb_default : robot N :=
    mkRobot EmptyString zero zero one one (ndiv N (nofZ N 3) (nofZ N 10)) None.

  (** src/fields2cover/types/Robot.cpp:33-35. *)
  Definition rb_getName (r : robot N) : string := rb_name r.
  (** src/fields2cover/types/Robot.cpp:37-39. *)
  Definition rb_setName (r : robot N) (s : string) : robot N :=
    mkRobot s (rb_width r) (rb_cov_width r) (rb_cruise r) (rb_max_icc r) (rb_diff_curv r) (rb_turn_vel r).
  (** src/fields2cover/types/Robot.cpp:41-43. *)
  Definition rb_getWidth (r : robot N) : N := rb_width r.
  (** src/fields2cover/types/Robot.cpp:45-47. *)
  Definition rb_setWidth (r : robot N) (w : N) : robot N :=
    mkRobot (rb_name r) w (rb_cov_width r) (rb_cruise r) (rb_max_icc r) (rb_diff_curv r) (rb_turn_vel r).
  (** src/fields2cover/types/Robot.cpp:49-51. *)
  Definition rb_getCovWidth (r : robot N) : N := rb_cov_width r.
  (** src/fields2cover/types/Robot.cpp:53-55. *)
  Definition rb_setCovWidth (r : robot N) (w : N) : robot N :=
    mkRobot (rb_name r) (rb_width r) w (rb_cruise r) (rb_max_icc r) (rb_diff_curv r) (rb_turn_vel r).
  (** src/fields2cover/types/Robot.cpp:57-59. *)
  Definition rb_getCruiseVel (r : robot N) : N := rb_cruise r.
  (** src/fields2cover/types/Robot.cpp:61-63. *)
  Definition rb_setCruiseVel (r : robot N) (v : N) : robot N :=
    mkRobot (rb_name r) (rb_width r) (rb_cov_width r) v (rb_max_icc r) (rb_diff_curv r) (rb_turn_vel r).
  (** src/fields2cover/types/Robot.cpp:65-67. *)
  Definition rb_getTurnVel (r : robot N) : N :=
    match rb_turn_vel r with Some v => v | None => rb_cruise r end.
  (** src/fields2cover/types/Robot.cpp:69-71. *)
  Definition rb_setTurnVel (r : robot N) (v : N) : robot N :=
    mkRobot (rb_name r) (rb_width r) (rb_cov_width r) (rb_cruise r) (rb_max_icc r) (rb_diff_curv r) (Some v).
  (** src/fields2cover/types/Robot.cpp:73-75. *)
  Definition rb_getMinTurningRadius (r : robot N) : N := ndiv N one (nadd N (rb_max_icc r) rb_eps).
  (** src/fields2cover/types/Robot.cpp:77-79. *)
  Definition rb_setMinTurningRadius (r : robot N) (rad : N) : robot N :=
    mkRobot (rb_name r) (rb_width r) (rb_cov_width r) (rb_cruise r)
      (ndiv N one (nadd N (nabs N rad) rb_eps)) (rb_diff_curv r) (rb_turn_vel r).
  (** src/fields2cover/types/Robot.cpp:81-83. *)
  Definition rb_getMaxCurv (r : robot N) : N := rb_max_icc r.
  (** src/fields2cover/types/Robot.cpp:85-87. *)
  Definition rb_setMaxCurv (r : robot N) (c : N) : robot N :=
    mkRobot (rb_name r) (rb_width r) (rb_cov_width r) (rb_cruise r) (nabs N c) (rb_diff_curv r) (rb_turn_vel r).
  (** src/fields2cover/types/Robot.cpp:89-91. *)
  Definition rb_getMaxDiffCurv (r : robot N) : N := rb_diff_curv r.
  (** src/fields2cover/types/Robot.cpp:93-95. *)
  Definition rb_setMaxDiffCurv (r : robot N) (dc : N) : robot N :=
    mkRobot (rb_name r) (rb_width r) (rb_cov_width r) (rb_cruise r) (rb_max_icc r) (nabs N dc) (rb_turn_vel r).
End Robot.
