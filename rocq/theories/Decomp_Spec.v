(** Specification vocabulary for the decomposition of cells, independent of the model's
    functions. *)
From Coq Require Import List Reals.
From Verif Require Import Num Point_Model Angle_Spec Container_Spec Border_Spec.
Import ListNotations.
Open Scope R_scope.

(** [a] and [b] are, up to 1e-7 in each coordinate, the two ends of some edge of the
    ring, in either order. *)
Definition edge_like (ring : list pt) (a b : pt) : Prop := exists pre x y post, ring = pre ++ x :: y :: post /\
  ((close a x /\ close b y) \/ (close a y /\ close b x)).

(** No point of [l] is farther than 1e-5 from [p]. *)
Definition no_crossing (l : list pt) (p : pt) : Prop := forall r, In r l -> ~ / 100000 < R_sqrt.sqrt (dist2 r p).

(** Going from [p] over edges of the ring only, always to the first crossing, to [a];
    [cr] gives the crossings of the ray from a point. *)
Inductive along (cr : pt -> list pt) (ring : list pt) : pt -> pt -> Prop :=
| along_stay : forall p, along cr ring p p
| along_edge : forall p q a, first_crossing (cr p) p q -> edge_like ring p q -> along cr ring q a -> along cr ring p a.

(** [l] is the line into the inside of the cell found from [p] by going over edges as
    far as possible: empty if there is no crossing there. *)
Definition leaves_edges (cr : pt -> list pt) (ring : list pt) (p : pt) (l : list pt) : Prop := exists a, along cr ring p a /\
  ((l = [] /\ no_crossing (cr a) a) \/
   (exists b, l = [a; b] /\ first_crossing (cr a) a b /\ ~ edge_like ring a b)).

(** The lines added for a vertex: both or none. *)
Definition both_sides (cr cr' : pt -> list pt) (ring : list pt) (p : pt) (ls : list (list pt)) : Prop := exists l1 l2,
  leaves_edges cr ring p l1 /\ leaves_edges cr' ring p l2 /\
  ((l1 <> [] /\ l2 <> [] /\ ls = [l1; l2]) \/ ((l1 = [] \/ l2 = []) /\ ls = [])).

(** The crossings from [p] that count lie before it as seen in direction [ang], within
    60 degrees of it, and their distances are doubles. *)
Definition before (ang : R) (l : list pt) (p : pt) : Prop := forall r, In r l ->
  R_sqrt.sqrt (dist2 r p) < 2 ^ 1023 /\
  (/ 100000 < R_sqrt.sqrt (dist2 r p) ->
   R_sqrt.sqrt (dist2 r p) <= 2 * ((px r - px p) * cos ang + (py r - py p) * sin ang)).

(** The vertices of cells, in order: those of each ring of each cell. *)
Definition vertices (cells : list (list (list pt))) : list pt := concat (map (@concat pt) cells).

(** The vertices of cells with the cell and the ring they come from. *)
Definition placed (cells : list (list (list pt))) : list (list (list pt) * list pt * pt) :=
  flat_map (fun c => flat_map (fun ring => map (fun p => (c, ring, p)) ring) c) cells.

(** [l] is the line from [p] to the first of the crossings, or empty without one. *)
Definition ray_line (l : list pt) (p : pt) (line : list pt) : Prop :=
  (line = [] /\ no_crossing l p) \/ exists q, line = [p; q] /\ first_crossing l p q.

(** [x] is the first of the cells at [p], or the empty cell if there is none. *)
Definition first_at (at_ : pt -> list (list pt) -> Prop) (cells : list (list (list pt))) (p : pt) (x : list (list pt)) : Prop :=
  (exists pre post, cells = pre ++ x :: post /\ at_ p x /\ forall y, In y pre -> ~ at_ p y) \/
  (x = [] /\ forall y, In y cells -> ~ at_ p y).
