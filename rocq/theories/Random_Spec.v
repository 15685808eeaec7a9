(** Specification vocabulary for random cells, independent of the model's functions. *)
From Coq Require Import List ZArith Reals.
From Verif Require Import Num Point_Model Container_Spec.
Import ListNotations.
Open Scope R_scope.

(** A sequence of values in [0, 1). *)
Definition unit_values (u : nat -> R) : Prop := forall k, 0 <= u k < 1.

(** The points drawn from the values number [k] on: point [i] is at a distance between
    [lo] and [hi] from the origin, in the [i]-th of [n] equal sectors, clockwise from
    the y axis. *)
Definition drawn (u : nat -> R) (k : nat) (n : nat) (lo hi : R) (v : list pt) : Prop :=
  length v = n /\
  forall i p, nth_error v i = Some p -> exists r a,
    r = lo + u (k + 2 * i)%nat * (hi - lo) /\ a = (INR i + u (k + 2 * i + 1)%nat) * (2 * PI / INR n) /\
    px p = r * sin a /\ py p = r * cos a /\ pz p = 0.
