(** Specification vocabulary for geometries given by GDAL, independent of the model's
    functions. *)
From Coq Require Import List Reals.
From Verif Require Import Num Point_Model Angle_Spec Ogr_Model.
Import ListNotations.
Open Scope R_scope.

(** The points of a geometry, [region] being those of a polygon. *)
Fixpoint points_of (region : list (list pt) -> pt -> Prop) (g : ogr RNum) (q : pt) : Prop :=
  match g with
  | GPoint p => q = p
  | GLine l => on_line l q
  | GPoints ps => In q ps
  | GLines ls => exists l, In l ls /\ on_line l q
  | GPolygon c => region c q
  | GPolygons cs => exists c, In c cs /\ region c q
  | GCollection gs => (fix any (gs : list (ogr RNum)) : Prop := match gs with [] => False | g :: gs => points_of region g q \/ any gs end) gs
  end.

(** The polygons of a geometry, at any depth. *)
Fixpoint polygons_of {N : Num} (g : ogr N) : list (list (list (point N))) :=
  match g with
  | GPolygon c => [c]
  | GPolygons cs => cs
  | GCollection gs => (fix all (gs : list (ogr N)) : list (list (list (point N))) := match gs with [] => [] | g :: gs => polygons_of g ++ all gs end) gs
  | _ => []
  end.

(** The curves of a geometry, at any depth: lines, and the rings of polygons. *)
Fixpoint curves_of {N : Num} (g : ogr N) : list (list (point N)) :=
  match g with
  | GLine l => [l]
  | GLines ls => ls
  | GPolygon c => c
  | GPolygons cs => concat cs
  | GCollection gs => (fix all (gs : list (ogr N)) : list (list (point N)) := match gs with [] => [] | g :: gs => curves_of g ++ all gs end) gs
  | _ => []
  end.

(** [g] is what the lines and the polygon have in common. *)
Definition cut_exactly (region : list (list pt) -> pt -> Prop) (lines : list (list pt)) (c : list (list pt)) (g : ogr RNum) : Prop :=
  forall q, points_of region g q <-> (exists l, In l lines /\ on_line l q) /\ region c q.

(** Only points, only lines, or nothing. *)
Definition unmixed (g : ogr RNum) : Prop :=
  match g with
  | GCollection gs => gs = []
  | GPolygon _ | GPolygons _ => False
  | _ => True
  end.

(** A stretch of the line that starts at [q] is in the polygon. *)
Definition stretch (region : list (list pt) -> pt -> Prop) (c : list (list pt)) (line : list pt) (q : pt) : Prop :=
  exists r, r <> q /\ forall s, on_segment q r s -> on_line line s /\ region c s.

(** The edge from [a] to [b] crosses the ray from [q] to the right. *)
Definition crosses (a b q : pt) : Prop :=
  (py a <= py q < py b \/ py b <= py q < py a) /\ px q < px a + (py q - py a) / (py b - py a) * (px b - px a).
Definition xor (A B : Prop) : Prop := (A /\ ~ B) \/ (~ A /\ B).
(** An odd number of edges of the ring, or of the rings, cross it. *)
Fixpoint odd_ring (l : list pt) (q : pt) : Prop :=
  match l with a :: ((b :: _) as t) => xor (crosses a b q) (odd_ring t q) | _ => False end.
Fixpoint odd_rings (c : list (list pt)) (q : pt) : Prop :=
  match c with [] => False | r :: c => xor (odd_ring r q) (odd_rings c q) end.
(** [q] is in the polygon with these rings: inside by the parity of the crossings, or on its
    border. *)
Definition in_polygon (c : list (list pt)) (q : pt) : Prop := odd_rings c q \/ on_border c q.

(** Successive pairs. *)
Definition pairs {A} (l : list A) : list (list A) := map (fun p => [fst p; snd p]) (combine l (tl l)).
