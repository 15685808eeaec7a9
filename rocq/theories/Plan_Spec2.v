(** Specification vocabulary for paths planned in one call (property C251). *)
From Coq Require Import List Arith ZArith Bool Reals Permutation.
From Verif Require Import Num Point_Model Angle_Spec Graph_Model Graph2D_Model RoutePlanner_Spec Turning_Model.
Import ListNotations.
Open Scope R_scope.

(** A sampled curve the path planner can work with: ten million samples at most, each at most a metre from
    the next one, driven forward or backward; and three samples or more are not
    all at the same place. *)
Definition usable (curve : list steer_state) : Prop :=
  (Z.of_nat (length curve) <= 10000000)%Z /\
  (forall c, In c curve -> st_d c = 1 \/ st_d c = -1) /\
  (forall i c c', nth_error curve i = Some c -> nth_error curve (S i) = Some c' ->
     (st_x c - st_x c') * (st_x c - st_x c') + (st_y c - st_y c') * (st_y c - st_y c') <= 1) /\
  ((3 <= length curve)%nat -> exists c c', In c curve /\ In c' curve /\ (st_x c, st_y c) <> (st_x c', st_y c')).

(** In the square of 1400 km around [o]. *)
Definition around (o p : pt) : Prop := Rabs (px p - px o) <= 700000 /\ Rabs (py p - py o) <= 700000.

(** The solver finds a round tour if there is one. *)
Definition solves {P} (solver : graph2d P -> nat -> option (list nat)) : Prop :=
  forall g d ids, round_tour (g_edges (g2_graph g)) d ids ->
    exists ids', solver g d = Some ids' /\ round_tour (g_edges (g2_graph g)) d ids'.

(** The rings have at least two points each, all at the same height. *)
Definition rings_ok (cells : list (list (list pt))) : Prop :=
  forall c, In c cells -> c <> [] /\ forall r, In r c -> (2 <= length r)%nat /\ level r.
