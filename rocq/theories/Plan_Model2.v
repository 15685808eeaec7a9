(** Model of src/fields2cover.cpp: the turn planner chosen by the options, from the
    models of the four turn planners. *)
From Coq Require Import List ZArith Reals.
From Verif Require Import Outcome Num Point_Model Path_Model Robot_Model Turning_Model Curves_Model Plan_Model.
Import ListNotations.
Open Scope R_scope.

Section Planners.
  (** The state spaces of the steering_functions library, see Curves_Model
      (src/fields2cover/path_planning/dubins_curves.cpp:29-33, dubins_curves_cc.cpp:32-41,
      reeds_shepp_curves.cpp:29-32, reeds_shepp_curves_hc.cpp:29-34). *)
  Variable lib_dubins : R -> R -> bool -> steer_end -> steer_end -> list steer_state.
  Variable ctl_cc : R -> R -> R -> bool -> steer_end -> steer_end -> list (R * R).
  Variable lib_cc : R -> R -> R -> bool -> steer_end -> steer_end -> list steer_state.
  Variable lib_rs : R -> R -> steer_end -> steer_end -> list steer_state.
  Variable lib_hc : R -> R -> R -> steer_end -> steer_end -> list steer_state.

  (** src/fields2cover.cpp:58-75. *)
  Definition getPPTurningBasePtr (alg : PPAlg) : planner :=
    match alg with
    | DUBINS => Dubins lib_dubins
    | DUBINS_CC => DubinsCC ctl_cc lib_cc
    | REEDS_SHEPP => ReedsShepp lib_rs
    | REEDS_SHEPP_HC => ReedsSheppHC lib_hc
    end.

  (** The generator of turns of PathPlanning::planPath in planCovPath: createSimpleTurn
      of the planner (src/fields2cover.cpp:138-139,144-145,160-162). *)
  Definition plan_simple_turn (alg : PPAlg) : robot RNum -> R -> R -> R -> R -> outcome (list (pstate RNum)) :=
    createSimpleTurn (getPPTurningBasePtr alg).
End Planners.
