(** Specification vocabulary for swath ordering.  Nothing here refers to the
    functions of the model, only to the swath record. *)
From Coq Require Import List Arith ZArith Bool Permutation Sorted.
From Verif Require Import Swath_Model.
Import ListNotations.

(** Position (in the id-sorted list of [n] swaths) of the swath that the snake
    order drives as [i]-th: 0,2,4,... and then ...,5,3,1. *)
Definition snake_pos (n i : nat) : nat :=
  if 2 * i <? n then 2 * i else 2 * (n - 1 - i) + 1.

(** Position of the swath the spiral order drives as [i]-th: blocks of [s];
    from a block at an even offset first, last, second, last but one, ...;
    from a block at an odd offset last, first, last but one, second, ... *)
Definition spiral_pos (s n i : nat) : nat :=
  let o := (i / s) * s in
  let t := i mod s in
  let b := Nat.min s (n - o) in
  o + (if Nat.even (o + t) then t / 2 else b - 1 - t / 2).

(** Position of the swath driven as [i]-th with start variant [odd_variant]:
    counting from the other end or not. *)
Definition variant_pos (from_last : bool) (n k : nat) : nat :=
  if from_last then n - 1 - k else k.

(** [b] is the swath [a] driven forward or backward: same id and width, the
    centre line reversed exactly when the direction flag is flipped.  [tr] is
    the effect of the text round trip on each coordinate. *)
Definition same_swath {P W} (tr : P -> P) (a b : swath P W) : Prop :=
  sw_id b = sw_id a /\ sw_width b = sw_width a /\
  ((sw_dir b = sw_dir a /\ sw_path b = map tr (sw_path a)) \/
   (sw_dir b = negb (sw_dir a) /\ sw_path b = rev (map tr (sw_path a)))).

(** Neighbours differ in a boolean attribute. *)
Definition alternates {A} (f : A -> bool) (l : list A) : Prop :=
  forall i a b, nth_error l i = Some a -> nth_error l (S i) = Some b ->
    f b = negb (f a).

(** A swath is driven from its lesser to its greater end ("to the right"):
    [lt first-point last-point]. *)
Definition runs_right {P W} (lt : P -> P -> bool) (s : swath P W) : Prop :=
  exists p q m, (sw_path s = p :: m ++ [q]) /\ lt p q = true.
Definition runs_left {P W} (lt : P -> P -> bool) (s : swath P W) : Prop :=
  exists p q m, (sw_path s = p :: m ++ [q]) /\ lt q p = true.

(** Position of the swath driven as [i]-th for each order strategy. *)
Definition order_pos (k : order_kind) (n i : nat) : nat :=
  match k with
  | Boustrophedon => i
  | Snake => snake_pos n i
  | Spiral s => spiral_pos s n i
  | Custom o => nth i o 0
  end.

(** Inputs for which an order strategy is supposed to work: the strategy's own
    precondition on the number of swaths [n]. *)
Definition order_usable (k : order_kind) (n : nat) : Prop :=
  match k with
  | Boustrophedon => True
  | Snake => n <> 1
  | Spiral s => s <> 0
  | Custom o => Permutation o (seq 0 n)
  end.

(** All swaths were drawn consistently: the direction flag equals [c] exactly
    for those drawn to the right. *)
Definition drawn {P W} (lt : P -> P -> bool) (c : bool) (s : swath P W) : Prop :=
  (sw_dir s = c /\ runs_right lt s) \/ (sw_dir s = negb c /\ runs_left lt s).
