(** Model of choosing the best swaths with a generator that has an overlap setting and a step
    (include/fields2cover/swath_generator/swath_generator_base.h, brute_force.h), in exact arithmetic. *)
From Coq Require Import List Arith ZArith Bool Reals.
From Verif Require Import Outcome Num Swath_Model Point_Model Angle_Model Objective_Model SwathGen_Model.
Import ListNotations.
Open Scope R_scope.

(** BruteForce with its base: include/fields2cover/swath_generator/swath_generator_base.h:42,
    include/fields2cover/swath_generator/brute_force.h:29. *)
Record bruteforce := mkBruteForce { bf_overlap : bool; bf_stepAngle : R }.

(** include/fields2cover/swath_generator/swath_generator_base.h:42,
    include/fields2cover/swath_generator/brute_force.h:29. *)
Definition bf_default : bruteforce := mkBruteForce false (PI / 180).
(** src/fields2cover/swath_generator/swath_generator_base.cpp:11-13. *)
Definition getAllowOverlap (g : bruteforce) : bool := bf_overlap g.
(** src/fields2cover/swath_generator/swath_generator_base.cpp:15-17. *)
Definition setAllowOverlap (g : bruteforce) (value : bool) : bruteforce := mkBruteForce value (bf_stepAngle g).
(** src/fields2cover/swath_generator/brute_force.cpp:18-20. *)
Definition getStepAngle (g : bruteforce) : R := bf_stepAngle g.
(** src/fields2cover/swath_generator/brute_force.cpp:22-24. *)
Definition setStepAngle (g : bruteforce) (d : R) : bruteforce := mkBruteForce (bf_overlap g) d.

Section Best.
  (** Cell::getLinesInside (src/fields2cover/types/Cell.cpp:180-182). *)
  Variable inside : list (list rpoint) -> rcell -> list (list rpoint).
  (** The text round trip of clone() (include/fields2cover/types/Geometries_impl.hpp:18-23). *)
  Variable wkt : rpoint -> rpoint.
  (** The objective (include/fields2cover/objectives/sg_obj/sg_objective.h:21-51): whether it has a
      cost of angles, that cost and the cost of swaths, both with the minimizing sign. *)
  Variable fast : bool.
  (** See [fast] (include/fields2cover/objectives/sg_obj/sg_objective.h:36). *)
  Variable cost_fast : R -> R -> rcell -> outcome R.
  (** See [fast] (include/fields2cover/objectives/sg_obj/sg_objective.h:40). *)
  Variable cost_swaths : rcell -> list (swath rpoint R) -> outcome R.
  (** The order in which std::transform runs (src/fields2cover/swath_generator/brute_force.cpp:38-43). *)
  Variable sched : nat -> list nat.

  (** SwathGeneratorBase::generateSwaths with the member allow_overlap
      (src/fields2cover/swath_generator/swath_generator_base.cpp:43-62). *)
  Definition g_generateSwaths (fuel : nat) (g : bruteforce) (angle op_width : R) (poly : rcell) : outcome (list (swath rpoint R)) :=
    sg_generateSwaths inside wkt fuel (bf_overlap g) angle op_width poly.

  (** BruteForce::computeBestAngle with the members
      (src/fields2cover/swath_generator/brute_force.cpp:26-47). *)
  Definition g_computeBestAngle (fuel : nat) (g : bruteforce) (op_width : R) (poly : rcell) : outcome R :=
    bf_computeBestAngle
      (fun ang => sg_computeCostOfAngle inside wkt fuel (bf_overlap g) fast cost_fast cost_swaths ang op_width poly)
      (bf_stepAngle g) sched.

  (** SwathGeneratorBase::generateBestSwaths for a cell
      (src/fields2cover/swath_generator/swath_generator_base.cpp:19-22). *)
  Definition g_generateBestSwaths (fuel : nat) (g : bruteforce) (op_width : R) (poly : rcell) : outcome (list (swath rpoint R)) :=
    do ang <- g_computeBestAngle fuel g op_width poly;
    g_generateSwaths fuel g ang op_width poly.

  (** SwathGeneratorBase::generateBestSwaths for cells
      (src/fields2cover/swath_generator/swath_generator_base.cpp:24-31). *)
  Definition g_generateBestSwaths_cells (fuel : nat) (g : bruteforce) (op_width : R) (polys : list rcell)
    : outcome (list (list (swath rpoint R))) :=
    mapM (g_generateBestSwaths fuel g op_width) polys.
End Best.
