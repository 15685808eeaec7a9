(** Specification vocabulary for costs of turns (properties C258 - C261), independent of the model's functions. *)
From Coq Require Import List Arith ZArith Reals.
From Verif Require Import Num Point_Model Angle_Spec Path_Model Objective_Spec Turning_Spec PathPlanning_Spec Swath_Model Robot_Model Turning_Model CompleteTurn_Model.
Import ListNotations.
Open Scope R_scope.

(** What a turn costs: nothing when there are fewer than two states, otherwise the sum of the lengths. *)
Definition turn_length (g : list (pstate RNum)) : R :=
  match g with
  | [] | [_] => 0
  | _ => rsum (map (fun s : pstate RNum => Rabs (ps_len s : R)) g)
  end.

(** The heading [a] does not point along the line through [p] and [q]. *)
Definition off_line (p : pt) (a : R) (q : pt) : Prop := cos a * (py q - py p) - sin a * (px q - px p) <> 0.

(** The numbers of a request in the frame of the line from start to end (see normal_turn). *)
Definition request (p : pt) (a : R) (q : pt) (b : R) (d sa ea : R) : Prop :=
  exists rot inv, transformToNormalTurn p a q b = (d, rot, sa, ea, inv).

(** Between two states the heading changes by at most [k] per length driven. *)
Fixpoint bends_at_most (k : R) (g : list (pstate RNum)) : Prop :=
  match g with
  | s :: ((t :: _) as g') => (exists x, circular_distance (ps_angle s) (ps_angle t) x /\ x <= k * Rabs (ps_len s)) /\ bends_at_most k g'
  | _ => True
  end.

(** [hd] gives the heading from one point to another, 0 when they are the same. *)
Definition headings (hd : pt -> pt -> R) : Prop :=
  forall a b, (dist2 a b <> 0 -> heading a b (hd a b)) /\ (dist2 a b = 0 -> hd a b = 0).

(** The robot that was set last. *)
Fixpoint last_robot (rb : robot RNum) (ops : list to_op) : robot RNum :=
  match ops with
  | [] => rb
  | ToRobot r :: ops => last_robot r ops
  | _ :: ops => last_robot rb ops
  end.

Section Routes.
  Context {W : Type}.
  Variable hd : pt -> pt -> R.
  Variable cost4 : pt -> R -> pt -> R -> R.
  (** How much more the turns between consecutive swaths cost than the straight lines. *)
  Fixpoint extra (g : list (swath pt W)) : R :=
    match g with
    | s :: ((t :: _) as g') =>
      match rev (sw_path s), sw_path t with
      | b :: a :: _, c :: e :: _ => cost4 b (hd a b) c (hd c e) - R_sqrt.sqrt (dist2 b c)
      | _, _ => 0
      end + extra g'
    | _ => 0
    end.
End Routes.
