(** Model of the long lines through sets of cells (src/fields2cover/types/Cells.cpp), in
    exact arithmetic. *)
From Coq Require Import List Reals.
From Verif Require Import Outcome Num Point_Model Angle_Model SwathGen_Model.
Import ListNotations.
Open Scope R_scope.

(** A cell without points, which OGRGeometryCollection::getEnvelope passes over (used in
    include/fields2cover/types/Geometry_impl.hpp:87-135). *)
Definition has_points (c : rcell) : bool := match concat c with [] => false | _ => true end.
(** The bounds of the envelope of several cells: those of the cells are merged one by
    one (include/fields2cover/types/Geometry_impl.hpp:87-135); 0 without points. *)
Definition cells_env_min (f : rpoint -> R) (cs : list rcell) : R :=
  match filter has_points cs with [] => 0 | c :: r => fold_left (fun m x => Rmin m (env_min f x)) r (env_min f c) end.
(** See [cells_env_min] (include/fields2cover/types/Geometry_impl.hpp:94-113). *)
Definition cells_env_max (f : rpoint -> R) (cs : list rcell) : R :=
  match filter has_points cs with [] => 0 | c :: r => fold_left (fun m x => Rmax m (env_max f x)) r (env_max f c) end.
(** Cells::getMinSafeLength (include/fields2cover/types/Geometry_impl.hpp:129-135). *)
Definition cells_getMinSafeLength (cs : list rcell) : R :=
  (cells_env_max px cs - cells_env_min px cs) + (cells_env_max py cs - cells_env_min py cs).
(** Cells::createSemiLongLine (src/fields2cover/types/Cells.cpp:196-199). *)
Definition cells_createSemiLongLine (cs : list rcell) (p : rpoint) (angle : R) : list rpoint :=
  [p; pointFromAngle p angle (cells_getMinSafeLength cs)].
(** Cells::createStraightLongLine (src/fields2cover/types/Cells.cpp:201-206). *)
Definition cells_createStraightLongLine (cs : list rcell) (p : rpoint) (angle : R) : list rpoint :=
  [pointFromAngle p (PI + angle) (cells_getMinSafeLength cs); pointFromAngle p angle (cells_getMinSafeLength cs)].
