(** Specification vocabulary for borders, independent of the model's functions. *)
From Coq Require Import List Reals.
From Verif Require Import Num Point_Model Angle_Spec.
Import ListNotations.
Open Scope R_scope.

(** Cross and dot product of the directions from [a] to [b] and from [b] to [c]. *)
Definition cross (a b c : pt) : R := (px b - px a) * (py c - py b) - (py b - py a) * (px c - px b).
Definition dot (a b c : pt) : R := (px b - px a) * (px c - px b) + (py b - py a) * (py c - py b).

(** Turning left or going straight on; turning right or straight back. *)
Definition leftwards (a b c : pt) : Prop := 0 < cross a b c \/ (cross a b c = 0 /\ 0 < dot a b c).
Definition rightwards (a b c : pt) : Prop := cross a b c < 0 \/ (cross a b c = 0 /\ dot a b c < 0).

(** Three successive points. *)
Definition successive (l : list pt) (a b c : pt) : Prop := exists pre post, l = pre ++ a :: b :: c :: post.

(** No two successive points coincide in the plane. *)
Definition no_stop (l : list pt) : Prop := forall pre a b post, l = pre ++ a :: b :: post -> 0 < dist2 a b.

(** The ring with vertices [v], its last point repeating the first. *)
Definition ring_of (v : list pt) : list pt := match v with [] => [] | a :: _ => v ++ [a] end.

(** A turn at some vertex of the ring, the start vertex included. *)
Definition corner (v : list pt) (a b c : pt) : Prop :=
  successive (ring_of v) a b c \/ exists m, v = b :: c :: m /\ last v b = a.

(** Twice the signed area of the ring through the vertices. *)
Fixpoint shoelace (first : pt) (l : list pt) : R :=
  match l with
  | [] => 0
  | [a] => px a * py first - px first * py a
  | a :: ((b :: _) as t) => px a * py b - px b * py a + shoelace first t
  end.

(** The area of a cell by that formula, for cells without holes. *)
Definition ring_area (c : list (list pt)) : R :=
  match c with (a :: l) :: _ => Rabs (shoelace a (a :: l)) / 2 | _ => 0 end.

(** [p] is in the box. *)
Definition in_box (x0 x1 y0 y1 : R) (p : pt) : Prop := x0 <= px p <= x1 /\ y0 <= py p <= y1.

(** [q] is the first of the points of [l] closest to [p] among those farther than
    1e-5. *)
Definition first_crossing (l : list pt) (p q : pt) : Prop := exists pre post, l = pre ++ q :: post /\
  / 100000 < R_sqrt.sqrt (dist2 q p) /\
  (forall r, In r pre -> / 100000 < R_sqrt.sqrt (dist2 r p) -> dist2 q p < dist2 r p) /\
  (forall r, In r post -> / 100000 < R_sqrt.sqrt (dist2 r p) -> dist2 q p <= dist2 r p).
