(** Specification vocabulary for paths, independent of the model's functions. *)
From Coq Require Import List ZArith Reals.
From Verif Require Import Num Point_Model Angle_Spec Path_Model Objective_Spec.
Import ListNotations.
Open Scope R_scope.

Notation rstate := (pstate RNum).

(** Distance driven before the i-th state. *)
Definition driven (p : list rstate) (i : nat) : R := rsum (map (fun s : rstate => Rabs (ps_len s)) (firstn i p)).

(** [q] is (in the plane) where driving distance [d] from the start of [s] leads. *)
Definition leads_to (s : rstate) (d : R) (q : pt) : Prop :=
  px q = px (ps_point s) + IZR (ps_dir s) * d * cos (ps_angle s) /\
  py q = py (ps_point s) + IZR (ps_dir s) * d * sin (ps_angle s).

(** Each state ends where the next one starts. *)
Definition contiguous (p : list rstate) : Prop :=
  forall i s t, nth_error p i = Some s -> nth_error p (S i) = Some t -> leads_to s (ps_len s) (ps_point t).

(** Same attributes apart from point and length. *)
Definition same_kind (s t : rstate) : Prop :=
  ps_angle s = ps_angle t /\ ps_dir s = ps_dir t /\ ps_type s = ps_type t /\ ps_vel s = ps_vel t.

(** [l] is the state [s] cut into equal pieces of about [step]. *)
Definition cut_of (step : R) (s : rstate) (l : list rstate) : Prop :=
  (exists t r, l = t :: r /\ ps_point t = ps_point s) /\
  (forall t, In t l -> same_kind t s /\ ps_len t = ps_len s / INR (length l) /\ Rabs (ps_len t) <= 3 / 2 * Rabs step) /\
  ((2 <= length l)%nat -> forall t, In t l -> 3 / 4 * Rabs step <= Rabs (ps_len t)) /\
  contiguous l /\
  (forall q, leads_to s (ps_len s) q -> leads_to (last l s) (ps_len (last l s)) q).

(** Signed length of all states. *)
Definition signed_length (p : list rstate) : R := rsum (map (fun s : rstate => ps_len s : R) p).

(** [t] merges into [s]: same type and direction, and closer than [d]. *)
Definition merges (d : R) (s t : rstate) : Prop :=
  ps_type s = ps_type t /\ ps_dir s = ps_dir t /\ R_sqrt.sqrt (dist2 (ps_point s) (ps_point t)) < d.

(** [q] has the plane coordinates [v]. *)
Definition at_xy (q : pt) (v : R * R) : Prop := px q = fst v /\ py q = snd v.

(** [t] is the state [s] moved along by the motion [f] of the plane. *)
Definition carried (f : pt -> R * R) (s t : rstate) : Prop :=
  at_xy (ps_point t) (f (ps_point s)) /\
  (forall d q q', leads_to s d q -> at_xy q' (f q) -> leads_to t d q') /\
  ps_len t = ps_len s /\ ps_dir t = ps_dir s /\ ps_type t = ps_type s /\ ps_vel t = ps_vel s.

(** Motions of the plane. *)
Definition shift (v q : pt) : R * R := (px q + px v, py q + py v).
Definition turn (c : pt) (a : R) (q : pt) : R * R :=
  (px c + (px q - px c) * cos a - (py q - py c) * sin a, py c + (px q - px c) * sin a + (py q - py c) * cos a).
Definition flip_x (q : pt) : R * R := (- px q, py q).
Definition flip_y (q : pt) : R * R := (px q, - py q).

(** The states that cover some distance. *)
Definition moving (p : list rstate) : list rstate :=
  filter (fun s : rstate => if Req_EM_T (ps_len s) 0 then false else true) p.
