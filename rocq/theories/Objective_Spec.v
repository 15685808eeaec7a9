(** Specification vocabulary for objective functions: length of a polyline, sums
    over pairs, over edges and over lists; independent of the model. *)
From Coq Require Import List Reals.
From Verif Require Import Num Point_Model Swath_Model Route_Model.
Import ListNotations.
Open Scope R_scope.

Section Spec.
  Context {P W : Type}.
  Variable dist : P -> P -> R.

  (** Length of a polyline. *)
  Fixpoint len (l : list P) : R :=
    match l with
    | a :: ((b :: _) as t) => dist a b + len t
    | _ => 0
    end.

  (** The jumps of a route that have no connection points: from the last point of a
      group of swaths to the first point of the next group. *)
  Fixpoint missed (d : P) (groups : list (list (swath P W))) (conns : list (list P)) : R :=
    match groups, conns with
    | g :: ((g' :: _) as gs), _ :: ((c' :: _) as cs) =>
        match c' with
        | [] => dist (last (flat_map sw_path g) d) (hd d (flat_map sw_path g'))
        | _ :: _ => 0
        end + missed d gs cs
    | _, _ => 0
    end.

  (** Each connection between two groups of swaths has a point. *)
  Definition inner_connected (r : route P W) : Prop :=
    forall i c, (0 < i < length (r_swaths r))%nat -> nth_error (r_conns r) i = Some c -> c <> [].
End Spec.

(** Sum of a list of reals. *)
Definition rsum (l : list R) : R := fold_right Rplus 0 l.

(** All unordered pairs of a list (by position). *)
Fixpoint pairs {A} (l : list A) : list (A * A) :=
  match l with
  | [] => []
  | a :: l => map (fun b => (a, b)) l ++ pairs l
  end.

(** The edges of a closed ring whose last point repeats the first. *)
Fixpoint ring_edges {A} (l : list A) : list (A * A) :=
  match l with
  | a :: ((b :: _) as t) => (a, b) :: ring_edges t
  | _ => []
  end.

(** Extent of the segment from [a] to [b] across the direction [ang]: its length
    times the absolute sine of the angle between the two. *)
Definition across (ang : R) (a b : point RNum) : R :=
  Rabs ((px b - px a) * sin ang - (py b - py a) * cos ang).

(** Calls that hand over at least one swath (if any), and only swaths with at
    least two points. *)
Definition rop_long {P W} (o : rop P W) : Prop :=
  match o with
  | RAddSwaths s | RAddConnectedSwaths _ s => s <> [] /\ forall x, In x s -> (2 <= length (sw_path x))%nat
  | RAddSwath s => (2 <= length (sw_path s))%nat
  | _ => True
  end.
