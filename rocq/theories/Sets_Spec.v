(** Specification vocabulary for set operations, independent of the model's functions. *)
From Coq Require Import List Reals.
From Verif Require Import Num Point_Model Angle_Spec Ogr_Model Ogr_Spec.
Import ListNotations.
Open Scope R_scope.

(** [q'] is less than [e] from [q] in x and in y, at the same height. *)
Definition box (q : pt) (e : R) (q' : pt) : Prop := Rabs (px q' - px q) < e /\ Rabs (py q' - py q) < e /\ pz q' = pz q.
(** [q] is inside the set [A], not only on its border. *)
Definition interior (A : pt -> Prop) (q : pt) : Prop := exists e, 0 < e /\ forall q', box q e q' -> A q'.
(** There are points of [A] as near to [q] as one likes. *)
Definition limit (A : pt -> Prop) (q : pt) : Prop := forall e, 0 < e -> exists q', box q e q' /\ A q'.

(** The points of cells. *)
Definition in_cells (region : list (list pt) -> pt -> Prop) (cs : list (list (list pt))) (q : pt) : Prop :=
  exists c, In c cs /\ region c q.

(** No collection within a collection, nor several polygons as one member. *)
Definition single_members {N : Num} (g : ogr N) : Prop :=
  forall gs, g = GCollection gs -> forall h, In h gs -> (forall ps, h <> GPolygons ps) /\ forall hs, h <> GCollection hs.

(** [cs] lies between the sets [A] and [B]: nothing outside [B], and all that is inside [A] can be reached. *)
Definition between (region : list (list pt) -> pt -> Prop) (A : pt -> Prop) (cs : list (list (list pt))) (B : pt -> Prop) : Prop :=
  (forall q, in_cells region cs q -> B q) /\ (forall q, interior A q -> limit (in_cells region cs) q).

(** What the geometry library should give, whenever it gives something: a geometry, no collection
    in a collection, with the points common to both, of the first but not within
    the second, or of any of the two. *)
Definition gives_common (region : list (list pt) -> pt -> Prop) (op : ogr RNum -> ogr RNum -> option (ogr RNum)) : Prop :=
  forall a b g, op a b = Some g -> single_members g /\ forall q, points_of region g q <-> points_of region a q /\ points_of region b q.
Definition gives_rest (region : list (list pt) -> pt -> Prop) (op : ogr RNum -> ogr RNum -> option (ogr RNum)) : Prop :=
  forall a b g, op a b = Some g -> single_members g /\
    (forall q, points_of region a q -> ~ points_of region b q -> points_of region g q) /\
    (forall q, points_of region g q -> points_of region a q /\ ~ interior (points_of region b) q).
Definition gives_all (region : list (list pt) -> pt -> Prop) (op : ogr RNum -> ogr RNum -> option (ogr RNum)) : Prop :=
  forall a b g, op a b = Some g -> single_members g /\ forall q, points_of region g q <-> points_of region a q \/ points_of region b q.
