(** Specification of cubic splines, independent of the model. *)
From Coq Require Import List Reals.
Import ListNotations.
Open Scope R_scope.

(** The cubic a + b (t - x) + c (t - x)^2 + d (t - x)^3 and its first two derivatives. *)
Definition cubic (x a b c d t : R) : R := a + b * (t - x) + c * (t - x) ^ 2 + d * (t - x) ^ 3.
Definition cubic' (x b c d t : R) : R := b + 2 * c * (t - x) + 3 * d * (t - x) ^ 2.
Definition cubic'' (x c d t : R) : R := 2 * c + 6 * d * (t - x).

Definition increasing (x : nat -> R) (n : nat) : Prop := forall i, (S i < n)%nat -> x i < x (S i).

(** [b c d] are the coefficients of the natural cubic spline through the n points (x i, y i):
    the pieces meet in the points with equal slope and curvature, and the
    curvature is zero at both ends. *)
Definition natural_spline (n : nat) (x y b c d : nat -> R) : Prop :=
  (forall i, (S i < n)%nat -> cubic (x i) (y i) (b i) (c i) (d i) (x (S i)) = y (S i)) /\
  (forall i, (S (S i) < n)%nat ->
     cubic' (x i) (b i) (c i) (d i) (x (S i)) = cubic' (x (S i)) (b (S i)) (c (S i)) (d (S i)) (x (S i)) /\
     cubic'' (x i) (c i) (d i) (x (S i)) = cubic'' (x (S i)) (c (S i)) (d (S i)) (x (S i))) /\
  cubic'' (x 0%nat) (c 0%nat) (d 0%nat) (x 0%nat) = 0 /\
  (forall i, S (S i) = n -> cubic'' (x i) (c i) (d i) (x (S i)) = 0).
