(** Specification vocabulary for the turn planners: what is expected of the curves
    of the steering_functions library and of the turns made of them. *)
From Coq Require Import List ZArith Reals.
From Verif Require Import Num Point_Model Angle_Spec Path_Model Path_Spec Objective_Spec Robot_Model Turning_Model Turning_Spec Curves_Model.
Import ListNotations.
Open Scope R_scope.

(** The sampled curve starts at [from] and ends at [to] (place and heading); it is driven
    forward, or backward where that is allowed; successive samples are at most
    [disc] apart, and both the heading and the direction of the chord deviate from the
    heading of the sample by at most [k] times [disc], as on a curve of curvature at most [k]. *)
Definition sampled (forward : bool) (k disc : R) (from to : R * R * R) (curve : list steer_state) : Prop :=
  (exists s mid e, curve = s :: mid ++ [e] /\
     (st_x s, st_y s) = fst from /\ congruent (st_theta s) (snd from) /\
     (st_x e, st_y e) = fst to /\ congruent (st_theta e) (snd to)) /\
  (forall c, In c curve -> st_d c = 1 \/ (forward = false /\ st_d c = -1)) /\
  (forall i c c', nth_error curve i = Some c -> nth_error curve (S i) = Some c' ->
     exists l phi psi, 0 <= l <= disc /\ Rabs phi <= k * disc /\ Rabs psi <= k * disc /\
       st_x c' = st_x c + st_d c * l * cos (st_theta c + phi) /\
       st_y c' = st_y c + st_d c * l * sin (st_theta c + phi) /\
       congruent (st_theta c') (st_theta c + psi)).

(** The planner drives forward only. *)
Definition forward_only (pl : planner) : bool :=
  match pl with Dubins _ | DubinsCC _ _ => true | _ => false end.

(** The limits of curvature and sharpness a planner may use for the robot. *)
Definition limits (pl : planner) (rb : robot RNum) (k sg : R) : Prop :=
  match pl with
  | DubinsCC _ _ => rb_max_icc rb / (41 / 20) <= k <= rb_max_icc rb /\ rb_diff_curv rb / (26 / 5) <= sg <= rb_diff_curv rb
  | _ => k = rb_max_icc rb /\ sg = rb_diff_curv rb
  end.

(** The curve of the planner's state space with these limits. *)
Definition curve_of (pl : planner) (k sg disc : R) (from to : steer_end) : list steer_state :=
  match pl with
  | Dubins lib => lib k disc true from to
  | DubinsCC _ lib => lib k sg disc true from to
  | ReedsShepp lib => lib k disc from to
  | ReedsSheppHC lib => lib k sg disc from to
  end.

(** The two states of a path follow each other on a curve of curvature at most [k]
    sampled every [disc]; the first one leads to the second one up to [k] times
    [disc] squared. *)
Definition follows (k disc : R) (s t : rstate) : Prop :=
  0 <= ps_len s <= disc /\ ps_len s = R_sqrt.sqrt (dist2 (ps_point s) (ps_point t)) /\
  (exists psi, Rabs psi <= k * disc /\ congruent (ps_angle t) (ps_angle s + psi)) /\
  forall x : pt, leads_to s (ps_len s) x -> R_sqrt.sqrt (dist2 x (ps_point t)) <= k * disc * disc.

(** A path of turn states driven with velocity [v], forward unless allowed otherwise. *)
Definition turn_states (forward : bool) (v : R) (r : list rstate) : Prop :=
  forall s : rstate, In s r -> ps_type s = 2%Z /\ ps_vel s = v /\ (ps_dir s = 1%Z \/ (forward = false /\ ps_dir s = (-1)%Z)).

(** The controls (distance, curvature) make a loop: one of them turns by more than 0.9
    turns, or they turn by more than 0.9 altogether or by more than 1.5 there and back. *)
Definition loops (controls : list (R * R)) : Prop :=
  (exists c, In c controls /\ 9 / 10 < Rabs (full_turns c)) \/ 9 / 10 < Rabs (rsum (map full_turns controls)) \/
  15 / 10 < rsum (map (fun c => Rabs (full_turns c)) controls).

(** [k] and [sg] are the robot's limits lowered [n] times. *)
Definition lowered (rb : robot RNum) (n : nat) (k sg : R) : Prop :=
  k * (1 + INR n / 20) = rb_max_icc rb /\ sg * (1 + INR n / 5) = rb_diff_curv rb.
