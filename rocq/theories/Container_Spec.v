(** Specification vocabulary for the geometry containers, independent of the
    model's functions. *)
From Coq Require Import List Reals.
From Verif Require Import Num Point_Model.
Import ListNotations.
Open Scope R_scope.

Notation pt := (point RNum).

(** [q] is [p] moved by [d]. *)
Definition moved (d p q : pt) : Prop := px q = px p + px d /\ py q = py p + py d /\ pz q = pz p + pz d.

(** [q] is [p] scaled by [b]. *)
Definition scaled (b : R) (p q : pt) : Prop := px q = px p * b /\ py q = py p * b /\ pz q = pz p * b.

(** [p] and [q] differ by less than 1e-7 in each coordinate. *)
Definition close (p q : pt) : Prop :=
  Rabs (px p - px q) < / 10000000 /\ Rabs (py p - py q) < / 10000000 /\ Rabs (pz p - pz q) < / 10000000.

(** [q] is the image of [p] by [im], or [p] itself when the image is close. *)
Definition moved_unless_close (im : pt -> pt -> Prop) (p q : pt) : Prop :=
  (im p q /\ ~ close p q) \/ (q = p /\ exists q', im p q' /\ close p q').

(** [r] is [l] with the element of index [i] set to [a]; missing elements before
    [i] are [pad]. *)
Definition updated {A} (pad : A) (l : list A) (i : nat) (a : A) (r : list A) : Prop :=
  length r = Nat.max (length l) (S i) /\ nth_error r i = Some a /\
  (forall j, j <> i -> (j < length l)%nat -> nth_error r j = nth_error l j) /\
  (forall j, (length l <= j < i)%nat -> nth_error r j = Some pad).

(** A ring whose last point is its first. *)
Definition closed {A} (r : list A) : Prop := r = [] \/ exists p m, r = p :: m ++ [p] \/ r = [p].

(** A list with a part that has a point, or without parts. *)
Definition proper {A} (l : list (list A)) : Prop := l = [] \/ exists x, In x l /\ x <> [].
Definition proper_cells {A} (l : list (list (list A))) : Prop :=
  l = [] \/ exists c x, In c l /\ In x c /\ x <> [].
