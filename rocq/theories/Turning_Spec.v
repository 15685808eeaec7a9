(** Specification vocabulary for turns, independent of the model's functions. *)
From Coq Require Import List ZArith Reals.
From Verif Require Import Num Point_Model Angle_Spec Path_Model Path_Spec Objective_Spec Robot_Model Turning_Model.
Import ListNotations.
Open Scope R_scope.

(** The motion that turns by [a] about the origin, after a reflection in the
    x axis when [sg] is -1, and then puts the origin on [c]. *)
Definition placing (c : pt) (a sg : R) (q : pt) : R * R :=
  (px c + px q * cos a - sg * py q * sin a, py c + px q * sin a + sg * py q * cos a).

(** Distances in the plane are kept. *)
Definition isometry (f : pt -> R * R) : Prop := forall q q',
  (fst (f q) - fst (f q')) * (fst (f q) - fst (f q')) + (snd (f q) - snd (f q')) * (snd (f q) - snd (f q')) = dist2 q q'.

(** Apart from the point and the heading the states agree. *)
Definition same_drive (s t : rstate) : Prop :=
  ps_len s = ps_len t /\ ps_dir s = ps_dir t /\ ps_type s = ps_type t /\ ps_vel s = ps_vel t.

(** State [s'] is [s] moved by [placing p rot sg], with the heading normalised, at
    the height of [p]. *)
Definition moved (p : pt) (rot sg : R) (s s' : rstate) : Prop :=
  at_xy (ps_point s') (placing p rot sg (ps_point s)) /\ pz (ps_point s') = pz p /\
  0 <= ps_angle s' < 2 * PI /\ congruent (ps_angle s') (rot + sg * ps_angle s) /\ same_drive s' s.

(** State [s'] is [s], put on the point [c] if it was less than 0.05f away. *)
Definition snapped (c : pt) (s s' : rstate) : Prop :=
  same_kind s' s /\ ps_len s' = ps_len s /\
  (R_sqrt.sqrt (dist2 (ps_point s) c) < 13421773 / 268435456 -> ps_point s' = c) /\
  (13421773 / 268435456 <= R_sqrt.sqrt (dist2 (ps_point s) c) -> ps_point s' = ps_point s).

(** Closer than a thousandth, or than two thousandths when one is negative. *)
Definition within_milli (x y : R) : Prop :=
  Rabs (x - y) < 2 / 1000 /\ (0 <= x -> 0 <= y -> Rabs (x - y) < 1 / 1000).

(** The turn of a control (distance, curvature) in full turns. *)
Definition full_turns (c : R * R) : R := fst c * snd c / (2 * PI).

(** The call asks for a turn over distance [d] from heading [sa] to heading [ea]
    (in the frame of the line from start to end; see normal_turn for what the
    transformation does). *)
Definition asks (o : turn_op) (rb : robot RNum) (d sa ea : R) : Prop :=
  match o with
  | OpTurn rb' p a q b => rb = rb' /\ exists rot inv, transformToNormalTurn p a q b = (d, rot, sa, ea, inv)
  | OpCached rb' d' sa' ea' => rb = rb' /\ d = d' /\ sa = sa' /\ ea = ea'
  | _ => False
  end.

(** The discretization in force after the calls: the last one set, 0.01 before. *)
Definition disc_after (ops : list turn_op) : R :=
  fold_left (fun d o => match o with OpDisc d' => d' | _ => d end) ops (1 / 100).
