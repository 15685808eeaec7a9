(** Specification vocabulary for path planning, independent of the model's functions. *)
From Coq Require Import List ZArith Reals.
From Verif Require Import Num Swath_Model Route_Model Point_Model Angle_Spec Path_Model Path_Spec.
Import ListNotations.
Open Scope R_scope.

(** The states [r] drive forward along the points [l] with velocity [v]: one swath
    state per segment. *)
Definition drives (v : R) (l : list pt) (r : list rstate) : Prop :=
  S (length r) = length l /\ contiguous r /\
  forall i a b, nth_error l i = Some a -> nth_error l (S i) = Some b ->
    exists s : rstate, nth_error r i = Some s /\ ps_point s = a /\ leads_to s (ps_len s) b /\ ps_len s = R_sqrt.sqrt (dist2 b a) /\
      0 <= ps_angle s < 2 * PI /\ ps_dir s = 1%Z /\ ps_type s = 1%Z /\ ps_vel s = v.

(** Alternately an element of [ps] and one of [ts]. *)
Fixpoint weave {A} (ps ts : list (list A)) : list A :=
  match ps with
  | [] => []
  | p :: ps => match ts with [] => p | t :: ts => p ++ t ++ weave ps ts end
  end.

(** [h] in [0, 2 pi) is the direction from [a] to [b]. *)
Definition heading (a b : pt) (h : R) : Prop :=
  0 <= h < 2 * PI /\
  px b = px a + R_sqrt.sqrt (dist2 a b) * cos h /\ py b = py a + R_sqrt.sqrt (dist2 a b) * sin h.

(** The direction at the end of a polyline, and at its start. *)
Definition heads_out (l : list pt) (h : R) : Prop := exists pre a b, l = pre ++ [a; b] /\ heading a b h.
Definition heads_in (l : list pt) (h : R) : Prop := exists a b post, l = a :: b :: post /\ heading a b h.

(** Swath states, turn states. *)
Definition swath_state (s : rstate) : bool := (ps_type s =? 1)%Z.
Definition all_turn (r : list rstate) : Prop := forall s : rstate, In s r -> ps_type s = 2%Z.

(** Planar distance. *)
Definition away (d : R) (a b : pt) : Prop := d < R_sqrt.sqrt (dist2 a b).

(** The direction from [a] to [b], 0 when they coincide in the plane. *)
Definition direction (a b : pt) (h : R) : Prop := heading a b h /\ (dist2 a b = 0 -> h = 0).

(** The directions before and after [b], as numbers in [0, 2 pi), differ by more
    than 0.1. *)
Definition bend (a b c : pt) : Prop := exists h k, direction a b h /\ direction b c k /\ 1 / 10 < Rabs (h - k).
Definition bend_after (mp : list pt) (j : nat) : Prop := exists a b c,
  nth_error mp j = Some a /\ nth_error mp (S j) = Some b /\ nth_error mp (S (S j)) = Some c /\ bend a b c.

(** [vp] are the bends of [mp], in order. *)
Definition bends (mp vp : list pt) : Prop := exists idx : list nat,
  Sorted.StronglySorted lt idx /\ (forall j, In j idx <-> bend_after mp j) /\
  Forall2 (fun j b => nth_error mp (S j) = Some b) idx vp.

(** [b] follows [a] in the list, [c] follows [b]. *)
Definition consecutive {A} (l : list A) (a b c : A) : Prop := exists pre post, l = pre ++ a :: b :: c :: post.

(** The pose (x, h) is where a robot coming from [a] starts the bend at [b]:
    before [b], by [safe] or half the way if that is less, heading for [b]. *)
Definition entering (safe : R) (a b : pt) (x : pt * R) : Prop :=
  0 < dist2 a b /\ heading a b (snd x) /\
  exists d, d = Rmin (R_sqrt.sqrt (dist2 a b) / 2) safe /\
    px (fst x) = px b - d * cos (snd x) /\ py (fst x) = py b - d * sin (snd x).

(** Each element is related to the next one. *)
Fixpoint chain {A} (P : A -> A -> Prop) (l : list A) : Prop :=
  match l with
  | a :: ((b :: _) as t) => P a b /\ chain P t
  | _ => True
  end.

(** What a route must satisfy for planning to be defined: as many connections as
    swath groups or more, swaths of at least two points, no single-point connection next to
    a missing group, and a group if a connection is left over. *)
Definition leg_ok {A B} (before : list A) (mp : list B) (after : list A) : Prop :=
  before = [] \/ after = [] -> length mp <> 1%nat.
Record plannable (rt : route pt R) : Prop := {
  pl_conns : (length (r_swaths rt) <= length (r_conns rt))%nat;
  pl_swaths : forall g s, In g (r_swaths rt) -> In s g -> (2 <= length (sw_path s))%nat;
  pl_legs : forall i mp, (i < length (r_swaths rt))%nat -> nth_error (r_conns rt) i = Some mp ->
    leg_ok (match i with O => [] | S k => nth k (r_swaths rt) [] end) mp (nth i (r_swaths rt) []);
  pl_rest : (length (r_swaths rt) < length (r_conns rt))%nat -> r_swaths rt <> [] /\ length (last (r_conns rt) []) <> 1%nat }.

(** A set of places (heights do not matter) with the way between any two of its points. *)
Definition convex (Q : pt -> Prop) : Prop := forall (a b x : pt) s, Q a -> Q b -> 0 <= s <= 1 ->
  px x = px b + s * (px a - px b) -> py x = py b + s * (py a - py b) -> Q x.

(** All points of the route are in [Q]. *)
Definition route_in (Q : pt -> Prop) (rt : route pt R) : Prop :=
  (forall g s p, In g (r_swaths rt) -> In s g -> In p (sw_path s) -> Q p) /\
  (forall mp p, In mp (r_conns rt) -> In p mp -> Q p).
