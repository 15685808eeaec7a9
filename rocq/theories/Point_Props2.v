(** Theorems about the signed distance to a line (properties C243, C244). *)
From Coq Require Import List Bool Reals Lra.
From Verif Require Import Outcome Num Point_Model Angle_Model.
Import ListNotations.
Open Scope R_scope.

(** Square of the distance of two points in the plane. *)
Definition plane2 (p q : rpoint) : R := (px p - px q) * (px p - px q) + (py p - py q) * (py p - py q).
(** The point of the line through [a] and [b] at [t] times the way. *)
Definition at_line (a b : rpoint) (t : R) : rpoint :=
  mkPoint (N := RNum) (px a + t * (px b - px a)) (py a + t * (py b - py a)) (pz a).
(** [p] is to the left of the way from [a] to [b]. *)
Definition left_of (a b p : rpoint) : Prop := 0 < (px b - px a) * (py p - py a) - (py b - py a) * (px p - px a).

Lemma signed_value (p a b : rpoint) : p_signedDistance2Segment RNum p a b =
  ((px b - px a) * (py p - py a) - (py b - py a) * (px p - px a)) /
  sqrt ((px b - px a) * (px b - px a) + (py b - py a) * (py b - py a) + (pz b - pz a) * (pz b - pz a)).
Proof.
  unfold p_signedDistance2Segment, p_det, p_dot, p_sub. cbn [px py pz nsub nmul nadd ndiv nopp nsqrt RNum].
  unfold Rdiv. f_equal. refine (_ : @eq R _ _). ring.
Qed.

(** C243: for a start and an end at the same height and different places, the absolute value is the distance
    in the plane from the line through both (not from the segment); the value is
    positive to the left of the way from the start to the end and negative to the right;
    swapping start and end changes the sign. *)
Theorem signed_distance (p a b : rpoint) : pz a = pz b -> px a <> px b \/ py a <> py b ->
  let d := p_signedDistance2Segment RNum p a b in
  (exists t, d * d = plane2 p (at_line a b t)) /\ (forall t, d * d <= plane2 p (at_line a b t)) /\
  (0 < d <-> left_of a b p) /\ (d < 0 <-> left_of b a p) /\ p_signedDistance2Segment RNum p b a = - d.
Proof.
  intros Hz Hxy d. set (u := px b - px a). set (v := py b - py a). set (x := px p - px a). set (y := py p - py a).
  assert (L : 0 < u * u + v * v).
  { destruct Hxy as [H|H]; [assert (0 < u * u)|assert (0 < v * v)]; try (apply Rsqr_pos_lt; unfold u, v; lra);
      pose proof (Rle_0_sqr u); pose proof (Rle_0_sqr v); unfold Rsqr in *; lra. }
  assert (W : forall w z : R, w * w + z * z + (pz b - pz a) * (pz b - pz a) = w * w + z * z) by (intros; rewrite Hz; ring).
  assert (D : d = (u * y - v * x) / sqrt (u * u + v * v)).
  { unfold d. rewrite signed_value. fold u v x y. rewrite W. reflexivity. }
  pose proof (sqrt_lt_R0 _ L) as S0. set (s := sqrt (u * u + v * v)) in *.
  assert (S2 : s * s = u * u + v * v) by (apply sqrt_sqrt; lra).
  assert (DS : d * s = u * y - v * x) by (rewrite D; field; lra).
  assert (PT : forall t, plane2 p (at_line a b t) = (x - t * u) * (x - t * u) + (y - t * v) * (y - t * v)).
  { intro t. unfold plane2, at_line. cbn [px py pz]. unfold x, y, u, v. refine (_ : @eq R _ _). ring. }
  assert (ID : forall t, (s * s) * plane2 p (at_line a b t) = (d * s) * (d * s) + (u * x + v * y - t * (s * s)) * (u * x + v * y - t * (s * s))).
  { intro t. rewrite PT, DS, S2. ring. }
  assert (SS : 0 < s * s) by (apply Rmult_lt_0_compat; auto).
  split; [|split; [|split; [|split]]].
  - exists ((u * x + v * y) / (s * s)). apply (Rmult_eq_reg_l (s * s)); [|lra]. rewrite ID. field. lra.
  - intro t. apply (Rmult_le_reg_l (s * s)); [lra|]. rewrite ID.
    pose proof (Rle_0_sqr (u * x + v * y - t * (s * s))) as Q. unfold Rsqr in Q. replace (s * s * (d * d)) with (d * s * (d * s)) by ring. lra.
  - unfold left_of. fold u v x y. rewrite <- DS. split; intro H.
    + apply Rmult_lt_0_compat; auto.
    + apply (Rmult_lt_reg_r s); lra.
  - unfold left_of. replace ((px a - px b) * (py p - py b) - (py a - py b) * (px p - px b)) with (- (d * s)).
    + split; intro H.
      * assert (0 < (- d) * s) by (apply Rmult_lt_0_compat; lra). lra.
      * apply (Rmult_lt_reg_r s); lra.
    + rewrite DS. unfold u, v, x, y. ring.
  - rewrite signed_value. rewrite D.
    replace ((px a - px b) * (px a - px b) + (py a - py b) * (py a - py b) + (pz a - pz b) * (pz a - pz b)) with (u * u + v * v).
    + fold s. replace ((px a - px b) * (py p - py b) - (py a - py b) * (px p - px b)) with (- (u * y - v * x)) by (unfold u, v, x, y; ring). refine (_ : @eq R _ _). field. lra.
    + unfold u, v. rewrite Hz. ring.
Qed.
Print Assumptions signed_distance.

Example signed_distance_ex : exists p a b : rpoint, pz a = pz b /\ (px a <> px b \/ py a <> py b) /\ left_of a b p.
Proof.
  exists (mkPoint (N := RNum) 2 3 0), (mkPoint (N := RNum) 0 0 1), (mkPoint (N := RNum) 4 3 1). split; [reflexivity|].
  split; [left; cbn; lra|]. unfold left_of. cbn. lra.
Qed.

(** C244: with different heights the value is neither the distance from the line in the plane nor in space. *)
Theorem signed_distance_refuted : exists p a b : rpoint, (px a <> px b \/ py a <> py b) /\
  let d := p_signedDistance2Segment RNum p a b in
  (forall t, d * d < plane2 p (at_line a b t)) /\
  (forall t, let q := at_line a b t in d * d < plane2 p q + (pz p - (pz a + t * (pz b - pz a))) * (pz p - (pz a + t * (pz b - pz a)))).
Proof.
  exists (mkPoint (N := RNum) 0 5 0), (mkPoint (N := RNum) 0 0 0), (mkPoint (N := RNum) 3 0 4). split; [left; cbn; lra|].
  intro d. assert (D : d = 3).
  { unfold d. rewrite signed_value. cbn [px py pz].
    replace ((3 - 0) * (3 - 0) + (0 - 0) * (0 - 0) + (4 - 0) * (4 - 0)) with (5 * 5) by ring. rewrite sqrt_square by lra. refine (_ : @eq R _ _). field. }
  rewrite D. unfold plane2, at_line. cbn [px py pz]. split; intro t; pose proof (Rle_0_sqr t); unfold Rsqr in *; nra.
Qed.
Print Assumptions signed_distance_refuted.
