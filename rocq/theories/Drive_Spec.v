(** Specification vocabulary for the cost of driving parallel rows in an order; independent of
    the functions of the model. *)
From Coq Require Import List Reals.
From Verif Require Import Num Point_Model Swath_Model Angle_Spec SwathGen_Spec.
Import ListNotations.
Open Scope R_scope.

(** The rows of a rectangle: row [j] goes from [o + j w n] along [d].  It is drawn along [d] if its
    direction flag is [c], and the other way round if not; heights do not matter. *)
Definition row (o d n : pt) (w : R) (c : bool) (j : nat) (s : swath pt R) : Prop :=
  exists a b : pt, px a = px o + INR j * w * px n /\ py a = py o + INR j * w * py n /\
    px b = px a + px d /\ py b = py a + py d /\
    ((sw_dir s = c /\ sw_path s = [a; b]) \/ (sw_dir s = negb c /\ sw_path s = [b; a])).
Definition rows o d n w c (l : list (swath pt R)) : Prop := forall j s, nth_error l j = Some s -> row o d n w c j s.

(** [n] is a unit vector across [d]. *)
Definition unit_across (d n : pt) : Prop := px n * px n + py n * py n = 1 /\ px d * px n + py d * py n = 0.

(** Length of a vector. *)
Definition norm (d : pt) : R := R_sqrt.sqrt (px d * px d + py d * py d).

(** The number of rows passed when going from number to number. *)
Fixpoint hops (l : list nat) : nat :=
  match l with a :: ((b :: _) as t) => ((a - b) + (b - a) + hops t)%nat | _ => 0%nat end.

(** [m] is the part of the line [l], level at angle [a], between [x0] and [x1]. *)
Definition cut_level (a x0 x1 : R) (l m : list pt) : Prop :=
  exists p q p' q', l = [p; q] /\ m = [p'; q'] /\ along a p' = x0 /\ along a q' = x1 /\
    across_of a p' = across_of a p /\ across_of a q' = across_of a p.
(** Clipping of lines that run through a rectangle. *)
Definition clips_rectangle (inside : list (list pt) -> list (list pt) -> list (list pt)) (a x0 x1 y0 y1 : R) (poly : list (list pt)) : Prop :=
  forall ls, (forall l, In l ls -> exists p q, l = [p; q] /\ along a p <= x0 /\ x1 <= along a q /\ across_of a q = across_of a p /\ y0 < across_of a p < y1) ->
    Forall2 (cut_level a x0 x1) ls (inside ls poly).

(** What the turns cost if the price depends on the number of rows passed. *)
Fixpoint hop_cost (t : nat -> R) (l : list nat) : R :=
  match l with a :: ((b :: _) as r) => t ((a - b) + (b - a))%nat + hop_cost t r | _ => 0 end.
