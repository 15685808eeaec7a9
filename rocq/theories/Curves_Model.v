(** Model of the four turn planners: createSimpleTurn of
    src/fields2cover/path_planning/dubins_curves.cpp, dubins_curves_cc.cpp,
    reeds_shepp_curves.cpp and reeds_shepp_curves_hc.cpp, and createConstrainedTurn of
    dubins_curves_cc.cpp, over the real numbers.  The curves come from the
    steering_functions library, whose state spaces are arguments here. *)
From Coq Require Import List Arith ZArith Bool Reals.
From Verif Require Import Outcome Num Point_Model Angle_Model Path_Model Robot_Model Turning_Model.
Import ListNotations.
Open Scope R_scope.

(** steer::State as given to the library
    (src/fields2cover/path_planning/dubins_curves.cpp:17-27). *)
Record steer_end : Type := mkEnd { en_x : R; en_y : R; en_theta : R; en_kappa : R; en_d : R }.

(** src/fields2cover/path_planning/dubins_curves.cpp:17-21, dubins_curves_cc.cpp:18-22,
    reeds_shepp_curves.cpp:17-21, reeds_shepp_curves_hc.cpp:17-21. *)
Definition simple_start (start_angle : R) : steer_end := mkEnd 0 0 start_angle 0 0.
(** src/fields2cover/path_planning/dubins_curves.cpp:23-27, dubins_curves_cc.cpp:24-28,
    reeds_shepp_curves.cpp:23-27, reeds_shepp_curves_hc.cpp:23-27. *)
Definition simple_end (dist_start_pos end_angle : R) : steer_end := mkEnd dist_start_pos 0 end_angle 0 0.

Section Dubins.
  (** get_path of Dubins_State_Space made with a curvature limit, a discretization and
      the flag forwards (src/fields2cover/path_planning/dubins_curves.cpp:29-33). *)
  Variable lib : R -> R -> bool -> steer_end -> steer_end -> list steer_state.

  (** src/fields2cover/path_planning/dubins_curves.cpp:13-34. *)
  Definition dubins_simple (rb : robot RNum) (discretization dist_start_pos start_angle end_angle : R)
    : outcome (list (pstate RNum)) :=
    steerStatesToPath
      (lib (rb_getMaxCurv RNum rb) discretization true (simple_start start_angle) (simple_end dist_start_pos end_angle))
      (rb_getTurnVel RNum rb).
End Dubins.

Section ReedsShepp.
  (** get_path of Reeds_Shepp_State_Space made with a curvature limit and a
      discretization (src/fields2cover/path_planning/reeds_shepp_curves.cpp:29-32). *)
  Variable lib : R -> R -> steer_end -> steer_end -> list steer_state.

  (** src/fields2cover/path_planning/reeds_shepp_curves.cpp:13-34. *)
  Definition reeds_shepp_simple (rb : robot RNum) (discretization dist_start_pos start_angle end_angle : R)
    : outcome (list (pstate RNum)) :=
    steerStatesToPath
      (lib (rb_getMaxCurv RNum rb) discretization (simple_start start_angle) (simple_end dist_start_pos end_angle))
      (rb_getTurnVel RNum rb).
End ReedsShepp.

Section ReedsSheppHC.
  (** get_path of HC00_Reeds_Shepp_State_Space made with limits of curvature and
      sharpness and a discretization
      (src/fields2cover/path_planning/reeds_shepp_curves_hc.cpp:29-34). *)
  Variable lib : R -> R -> R -> steer_end -> steer_end -> list steer_state.

  (** src/fields2cover/path_planning/reeds_shepp_curves_hc.cpp:13-36. *)
  Definition reeds_shepp_hc_simple (rb : robot RNum) (discretization dist_start_pos start_angle end_angle : R)
    : outcome (list (pstate RNum)) :=
    steerStatesToPath
      (lib (rb_getMaxCurv RNum rb) (rb_getMaxDiffCurv RNum rb) discretization
        (simple_start start_angle) (simple_end dist_start_pos end_angle))
      (rb_getTurnVel RNum rb).
End ReedsSheppHC.

Section DubinsCC.
  (** get_controls and get_path of CC00_Dubins_State_Space (or CC_Dubins_State_Space)
      made with limits of curvature and sharpness, a discretization and the flag
      forwards (src/fields2cover/path_planning/dubins_curves_cc.cpp:32-41,65-74). *)
  Variable ctl : R -> R -> R -> bool -> steer_end -> steer_end -> list (R * R).
  Variable lib : R -> R -> R -> bool -> steer_end -> steer_end -> list steer_state.

  (** src/fields2cover/path_planning/dubins_curves_cc.cpp:14-44; the loop ends within
      22 rounds (see retry_bounded). *)
  Definition dubins_cc_simple (rb : robot RNum) (discretization dist_start_pos start_angle end_angle : R)
    : outcome (list (pstate RNum)) :=
    let start := simple_start start_angle in
    let end_ := simple_end dist_start_pos end_angle in
    do r <- cc_loop (fun k s d => ctl k s d true start end_) (fun k s d => lib k s d true start end_)
              22 true rb discretization 0;
    Ok (snd r).

  (** src/fields2cover/path_planning/dubins_curves_cc.cpp:46-77. *)
  Definition createConstrainedTurn (rb : robot RNum) (discretization : R)
      (start_pos : rpoint) (start_angle start_curvature : R)
      (end_pos : rpoint) (end_angle end_curvature : R) (fix_loops : bool) : outcome (list (pstate RNum)) :=
    let start := mkEnd (px start_pos) (py start_pos) start_angle start_curvature 0 in
    let end_ := mkEnd (px end_pos) (py end_pos) end_angle end_curvature 0 in
    do r <- cc_loop (fun k s d => ctl k s d true start end_) (fun k s d => lib k s d true start end_)
              22 fix_loops rb discretization 0;
    Ok (snd r).
End DubinsCC.

(** The classes derived from TurningBase, each with its state space
    (include/fields2cover/path_planning/dubins_curves.h:17-21, dubins_curves_cc.h:17-25,
    reeds_shepp_curves.h:17-21, reeds_shepp_curves_hc.h:17-21). *)
Inductive planner : Type :=
| Dubins (lib : R -> R -> bool -> steer_end -> steer_end -> list steer_state)
| DubinsCC (ctl : R -> R -> R -> bool -> steer_end -> steer_end -> list (R * R))
    (lib : R -> R -> R -> bool -> steer_end -> steer_end -> list steer_state)
| ReedsShepp (lib : R -> R -> steer_end -> steer_end -> list steer_state)
| ReedsSheppHC (lib : R -> R -> R -> steer_end -> steer_end -> list steer_state).

(** The virtual call of createSimpleTurn
    (include/fields2cover/path_planning/turning_base.h:50-51). *)
Definition createSimpleTurn (pl : planner) : robot RNum -> R -> R -> R -> R -> outcome (list (pstate RNum)) :=
  match pl with
  | Dubins lib => dubins_simple lib
  | DubinsCC ctl lib => dubins_cc_simple ctl lib
  | ReedsShepp lib => reeds_shepp_simple lib
  | ReedsSheppHC lib => reeds_shepp_hc_simple lib
  end.
