(** Model of f2c::obj::CompleteTurnPathObj
    (include/fields2cover/objectives/rp_obj/complete_turn_path_obj.h) over the real numbers, with the
    turn planner it holds, whose cache each cost may change.  The second template argument is PPObjective or
    PathLength; both give the length of the path
    (src/fields2cover/objectives/pp_obj/pp_objective.cpp:11-13, include/fields2cover/objectives/pp_obj/path_length.h:15-18). *)
From Coq Require Import List Arith ZArith Bool Reals.
From Verif Require Import Outcome Num Point_Model Angle_Model Path_Model Robot_Model Turning_Model Swath_Model Route_Model Objective_Model.
Import ListNotations.
Open Scope R_scope.

(** The members (include/fields2cover/objectives/rp_obj/complete_turn_path_obj.h:49-53);
    the objective for paths has none. *)
Record turn_obj : Type := mkTO { to_turner : turner; to_robot : robot RNum }.

(** include/fields2cover/objectives/rp_obj/complete_turn_path_obj.h:57-60: with a new turn planner. *)
Definition to_new (rb : robot RNum) : turn_obj := mkTO turner_new rb.
(** include/fields2cover/objectives/rp_obj/complete_turn_path_obj.h:62-65: with a copy of the turn planner. *)
Definition to_new_with (rb : robot RNum) (t : turner) : turn_obj := mkTO t rb.
(** include/fields2cover/objectives/rp_obj/complete_turn_path_obj.h:67-70. *)
Definition to_setRobot (o : turn_obj) (rb : robot RNum) : turn_obj := mkTO (to_turner o) rb.
(** include/fields2cover/objectives/rp_obj/complete_turn_path_obj.h:72-75. *)
Definition to_setTurnPlanner (o : turn_obj) (t : turner) : turn_obj := mkTO t (to_robot o).

Section TurnCost.
  (** The virtual createSimpleTurn of the planner
      (include/fields2cover/path_planning/turning_base.h:50-51). *)
  Variable simple : robot RNum -> R -> R -> R -> R -> outcome (list (pstate RNum)).

  (** include/fields2cover/objectives/rp_obj/complete_turn_path_obj.h:78-84. *)
  Definition to_cost (o : turn_obj) (p1 : rpoint) (ang1 : R) (p2 : rpoint) (ang2 : R) : outcome (R * turn_obj) :=
    do r <- createTurn simple (to_turner o) (to_robot o) p1 ang1 p2 ang2;
    Ok (path_length RNum (fst r), mkTO (snd r) (to_robot o)).

  (** The calls that read or change the members
      (include/fields2cover/objectives/rp_obj/complete_turn_path_obj.h:42-47). *)
  Inductive to_op : Type :=
  | ToCost (p : rpoint) (a : R) (q : rpoint) (b : R)
  | ToRobot (rb : robot RNum)
  | ToPlanner (t : turner).

  (** One call (include/fields2cover/objectives/rp_obj/complete_turn_path_obj.h:42-47). *)
  Definition to_step (o : turn_obj) (c : to_op) : outcome turn_obj :=
    match c with
    | ToCost p a q b => do r <- to_cost o p a q b; Ok (snd r)
    | ToRobot rb => Ok (to_setRobot o rb)
    | ToPlanner t => Ok (to_setTurnPlanner o t)
    end.

  Context {W : Type}.
  Notation swath := (swath rpoint W).
  (** F2CPoint() (src/fields2cover/types/Point.cpp:11). *)
  Notation origin := (mkPoint (N := RNum) 0 0 0).
  (** The heading of a segment (src/fields2cover/types/Swath.cpp:81,89). *)
  Definition seg_angle (a b : rpoint) : R := angleFromPoint (p_sub RNum b a).

  (** src/fields2cover/objectives/rp_obj/rp_objective.cpp:36-39 with the cost of a turn. *)
  Definition to_cost_swath_swath (o : turn_obj) (s1 s2 : swath) : outcome (R * turn_obj) :=
    do a <- sw_getOutAngle RNum seg_angle s1;
    do b <- sw_getInAngle RNum seg_angle s2;
    to_cost o (swath_endPoint origin s1) a (swath_startPoint origin s2) b.

  (** The loop of src/fields2cover/objectives/rp_obj/rp_objective.cpp:113-116. *)
  Fixpoint to_jumps (o : turn_obj) (acc : R) (prev : swath) (g : list swath) : outcome (R * turn_obj) :=
    match g with
    | [] => Ok (acc, o)
    | s :: g => do r <- to_cost_swath_swath o prev s; to_jumps (snd r) (acc + fst r) s g
    end.

  (** src/fields2cover/objectives/rp_obj/rp_objective.cpp:108-118; the cost of a swath is its
      length, as computeCost(p1, p2) is not overridden. *)
  Definition to_cost_swaths (o : turn_obj) (g : list swath) : outcome (R * turn_obj) :=
    let d := fold_left (fun acc s => acc + rp_cost_swath RNum p_distance s) g 0 in
    match g with [] => Ok (d, o) | s :: g => to_jumps o d s g end.

  (** src/fields2cover/objectives/rp_obj/rp_objective.cpp:120-135; only the costs of
      lists of swaths ask for turns. *)
  Definition to_cost_route (o : turn_obj) (r : route rpoint W) : outcome (R * turn_obj) :=
    do d1 <- foldM (fun (acc : R * turn_obj) g => do c <- to_cost_swaths (snd acc) g; Ok (fst acc + fst c, snd c)) (r_swaths r) (0, o);
    let d2 := fold_left (fun acc c => acc + rp_cost_points RNum p_distance c) (r_conns r) (fst d1) in
    do d3 <- foldM (rp_route_step RNum origin seg_angle p_distance r) (seq 0 (r_sizeVectorSwaths r)) d2;
    Ok (d3, snd d1).
End TurnCost.
