(** Theorems about angles and points (properties C60 - C66, C92), each with its
    assumptions and an example. *)
From Coq Require Import List Arith ZArith Lia Bool Reals Lra Psatz Floats.
From Verif Require Import Outcome ListAux Num Point_Model Angle_Model Angle_Spec Angle_Proofs Angle_Proofs2.
Import ListNotations.
Open Scope R_scope.

(** C60.  Normalisation: the result is in [0, 2 pi) however the addition is
    rounded, and exactly it is congruent to the argument, hence the unique such
    angle. *)
Theorem mod_2pi_normalises a :
  (forall rnd m, rounding rnd -> 0 < m -> 0 <= g_mod_rnd rnd a m < m) /\
  0 <= mod_2pi a < 2 * PI /\ congruent (mod_2pi a) a /\
  (forall x, 0 <= x < 2 * PI -> congruent x a -> x = mod_2pi a).
Proof.
  split; [intros; apply mod_rnd_range; auto|]. split; [apply mod2_range|]. split; [apply mod2_congr|].
  intros x Hx HC. symmetry. apply mod2_unique; auto.
Qed.
Print Assumptions mod_2pi_normalises.

(** -pi/2 is normalised to 3 pi/2. *)
Example mod_2pi_example : mod_2pi (- (PI / 2)) = 3 * (PI / 2).
Proof. apply mod2_unique; [pose proof PI_RGT_0; lra|]. exists 1%Z. simpl. lra. Qed.
(** Rounding to integers is a rounding. *)
Example rounding_example : rounding (fun x => IZR (Int_part x)).
Proof.
  split.
  - rewrite (floor_unique 0 0); simpl; lra.
  - intros x y H. apply IZR_le. destruct (floor_spec x), (floor_spec y).
    assert (Int_part x < Int_part y + 1)%Z by (apply lt_IZR; rewrite plus_IZR; lra). lia.
Qed.

(** C61.  Continuity of angles, while the number of turns fits an int. *)
Theorem angle_continuity prev val : Rabs prev <= 10 ^ 10 ->
  exists r, getAngContinuity prev val = Ok r /\ congruent r val /\ Rabs (r - prev) <= PI.
Proof. intro H. apply angCont_ok, round_small, H. Qed.
Print Assumptions angle_continuity.

Theorem angle_continuity_vector v vals : Rabs v + INR (length vals) * PI <= 10 ^ 10 ->
  exists rs, getAngContinuity_vec (v :: vals) = Ok (v :: rs) /\ Forall2 congruent rs vals /\
    forall i x y, nth_error (v :: rs) i = Some x -> nth_error (v :: rs) (S i) = Some y -> Rabs (y - x) <= PI.
Proof.
  intro H. destruct (angCont_from_ok vals v H) as (rs & E & C & N). exists rs.
  unfold getAngContinuity_vec. rewrite E. cbn [bind]. split; auto. split; auto.
  clear - N. revert v N. induction rs as [|r rs IH]; intros v N i x y Hx Hy.
  - destruct i as [|[|i]]; discriminate.
  - destruct N as [N1 N2]. destruct i as [|i].
    + simpl in Hx, Hy. injection Hx as <-. injection Hy as <-. auto.
    + apply (IH r N2 i); auto.
Qed.
Print Assumptions angle_continuity_vector.

(** The bound is needed: far from 0 the conversion to int is undefined; so is the
    vector version on an empty vector. *)
Theorem angle_continuity_refuted : exists prev val,
  getAngContinuity prev val = UB /\ getAngContinuity_vec [] = UB.
Proof.
  exists (3000000000 * (2 * PI)), 0. split; [|reflexivity].
  unfold getAngContinuity. replace (3000000000 * (2 * PI) / (2 * PI)) with 3000000000 by (field; pose proof PI_RGT_0; lra).
  replace (Rround 3000000000) with 3000000000%Z.
  - reflexivity.
  - unfold Rround. destruct (Rle_dec 0 3000000000); [|lra]. symmetry. apply floor_unique. lra.
Qed.
Print Assumptions angle_continuity_refuted.

Example angle_continuity_example : Rabs (7 * PI) <= 10 ^ 10 /\ Rabs 1 + INR (length [5; 9]) * PI <= 10 ^ 10.
Proof.
  pose proof PI_RGT_0. pose proof PI_4. split.
  - rewrite Rabs_right by lra. simpl. lra.
  - rewrite Rabs_right by lra. simpl. lra.
Qed.

(** C62.  The absolute difference is the circular distance, a metric on
    directions; the average is half way. *)
Theorem angle_difference_metric a b c :
  circular_distance a b (getAngleDiffAbs a b) /\
  0 <= getAngleDiffAbs a b <= PI /\
  getAngleDiffAbs a b = getAngleDiffAbs b a /\
  (getAngleDiffAbs a b = 0 <-> congruent a b) /\
  getAngleDiffAbs a c <= getAngleDiffAbs a b + getAngleDiffAbs b c.
Proof.
  split; [apply diffAbs_circular|]. split; [apply diffAbs_range|]. split.
  - apply (circular_unique a b); [apply diffAbs_circular|apply circular_sym, diffAbs_circular].
  - split; [apply diffAbs_zero|apply diffAbs_triangle].
Qed.
Print Assumptions angle_difference_metric.

Theorem angle_average_half a b :
  circular_distance (getAngleAvg a b) a (getAngleDiffAbs a b / 2) /\
  circular_distance (getAngleAvg a b) b (getAngleDiffAbs a b / 2).
Proof.
  destruct (avg_ok a b) as [E1 E2]. rewrite <- E1 at 1. rewrite <- E2. split; apply diffAbs_circular.
Qed.
Print Assumptions angle_average_half.

(** The directions 1/2 and -1/2 differ by 1. *)
Example angle_difference_example : getAngleDiffAbs (1 / 2) (- (1 / 2)) = 1.
Proof.
  apply (circular_unique (1 / 2) (- (1 / 2))); [apply diffAbs_circular|].
  pose proof (circular_small (1 / 2) (- (1 / 2))) as H.
  replace (Rabs (1 / 2 - - (1 / 2))) with 1 in H by (rewrite Rabs_right; lra). apply H.
  pose proof PI2_3_2. lra.
Qed.

(** C63.  Rotation about a point is a rigid motion of the plane. *)
Definition same_xy (p q : pt) : Prop := px p = px q /\ py p = py q.

Theorem rotation_rigid (c p q : pt) a b :
  same_xy (rotateFromPoint c a c) c /\
  dist2 (rotateFromPoint c a p) (rotateFromPoint c a q) = dist2 p q /\
  same_xy (rotateFromPoint c b (rotateFromPoint c a p)) (rotateFromPoint c (a + b) p) /\
  same_xy (rotateFromPoint c (- a) (rotateFromPoint c a p)) p /\
  same_xy (rotateFromPoint c 0 p) p /\
  (p_det RNum (p_sub RNum p c) (p_sub RNum (rotateFromPoint c a p) c) = dist2 p c * sin a).
Proof.
  pose proof (sin2_cos2 a) as HSC. unfold Rsqr in HSC.
  unfold same_xy, dist2, p_det, p_sub. cbn [px py pz].
  rewrite !(proj1 (rotate_xy _ _ _)), !(proj2 (rotate_xy _ _ _)).
  rewrite cos_plus, sin_plus, cos_neg, sin_neg, cos_0, sin_0.
  set (s := sin a) in *. set (k := cos a) in *.
  destruct c as [cx cy cz], p as [x y z], q as [x' y' z']. simpl in *. 
  fold s k. repeat split; try ring.
  - transitivity (((x - x') * (x - x') + (y - y') * (y - y')) * (s * s + k * k)); [ring|]. rewrite HSC. ring.
  - transitivity (cx + (x - cx) * (s * s + k * k)); [ring|]. rewrite HSC. ring.
  - transitivity (cy + (y - cy) * (s * s + k * k)); [ring|]. rewrite HSC. ring.
Qed.
Print Assumptions rotation_rigid.

(** A quarter turn of (2,1) about (1,1). *)
Example rotation_example :
  rotateFromPoint (mkPoint (N := RNum) 1 1 5) (PI / 2) (mkPoint (N := RNum) 2 1 7) = mkPoint (N := RNum) 1 2 0.
Proof.
  unfold rotateFromPoint, p_rotateFromPoint. rewrite cos_PI2, sin_PI2. simpl. f_equal; lra.
Qed.

(** C64.  Closest point on a segment: on it, and nearest in space among its points
    (degenerate segments included); nearest in the plane too when the segment is level. *)
Theorem closest_in_segment (p a b : pt) :
  on_segment a b (p_closestPointInSegment RNum p a b) /\
  (forall r, on_segment a b r -> dist3 (p_closestPointInSegment RNum p a b) p <= dist3 r p) /\
  (pz a = pz b -> forall r, on_segment a b r -> dist2 (p_closestPointInSegment RNum p a b) p <= dist2 r p).
Proof.
  split; [apply closest_on|]. split.
  - intros r Hr. apply closest_min3; auto.
  - intros HZ r Hr. apply closest_min2; auto.
Qed.
Print Assumptions closest_in_segment.
Example closest_in_segment_example : dist2 (p_closestPointInSegment RNum (mkPoint (N := RNum) 1 3 0) (mkPoint (N := RNum) 0 0 0) (mkPoint (N := RNum) 2 0 0))
  (mkPoint (N := RNum) 1 3 0) = 9.
Proof.
  destruct (closest_in_segment (mkPoint (N := RNum) 1 3 0) (mkPoint (N := RNum) 0 0 0) (mkPoint (N := RNum) 2 0 0)) as ((t & Ht & X & Y & _) & _ & M).
  cbn [px py] in X, Y. apply Rle_antisym.
  - eapply Rle_trans; [apply (M eq_refl (mkPoint (N := RNum) 1 0 0)); exists (1 / 2); cbn [px py pz]; repeat split; lra|].
    unfold dist2. cbn [px py]. lra.
  - unfold dist2. rewrite X, Y. cbn [px py]. pose proof (Rle_0_sqr (0 + t * (2 - 0) - 1)) as Q. unfold Rsqr in Q. nra.
Qed.

(** Lines and rings: a point of the line, nearest in the plane among all its points. *)
Theorem closest_on_line (p : pt) l : (2 <= length l)%nat -> level l ->
  exists q, closestPointTo p l = Ok q /\ on_line l q /\ forall r, on_line l r -> dist2 q p <= dist2 r p.
Proof. apply closestPointTo_ok. Qed.
Print Assumptions closest_on_line.

(** Cells and collections of cells: nearest point on the border. *)
Theorem closest_on_border (p : pt) (cell : list (list pt)) :
  cell <> [] -> (forall r, In r cell -> (2 <= length r)%nat /\ level r) ->
  exists q, cell_closestPointOnBorderTo p cell = Ok q /\ on_border cell q /\
    forall r, on_border cell r -> dist2 q p <= dist2 r p.
Proof.
  intros HN H. destruct (pick_parts closestPointTo on_line p cell HN) as (q & E & O & M).
  - intros x Hx. apply closestPointTo_ok; apply H; auto.
  - exists q. split; auto. split; auto. intros r (x & Hx & Hr). eapply M; eauto.
Qed.
Print Assumptions closest_on_border.

Theorem closest_on_borders (p : pt) (cells : list (list (list pt))) :
  cells <> [] -> (forall c, In c cells -> c <> [] /\ forall r, In r c -> (2 <= length r)%nat /\ level r) ->
  exists q, cells_closestPointOnBorderTo p cells = Ok q /\ (exists c, In c cells /\ on_border c q) /\
    forall c r, In c cells -> on_border c r -> dist2 q p <= dist2 r p.
Proof.
  intros HN H. apply (pick_parts cell_closestPointOnBorderTo on_border p cells HN).
  intros c Hc. apply closest_on_border; apply H; auto.
Qed.
Print Assumptions closest_on_borders.

Definition sq : list pt :=
  [mkPoint (N := RNum) 0 0 0; mkPoint (N := RNum) 4 0 0; mkPoint (N := RNum) 4 4 0; mkPoint (N := RNum) 0 0 0].
Example closest_on_line_example : (2 <= length sq)%nat /\ level sq /\ on_line sq (mkPoint (N := RNum) 3 0 0).
Proof.
  split; [simpl; lia|]. split.
  - intros p q Hp Hq. simpl in Hp, Hq. intuition (subst; reflexivity).
  - left. exists (3 / 4). simpl. split; [lra|]. split; [|split]; field.
Qed.

(** As stated it fails: a line of one point has a closest point, but the call reads
    past the end of an empty vector; and on sloped lines the result need not be
    nearest in the distance that the same call compares by (x and y only). *)
Theorem closest_single_point_refuted : exists (p q : pt), closestPointTo p [q] = UB.
Proof. exists (mkPoint (N := RNum) 0 0 0), (mkPoint (N := RNum) 1 0 0). reflexivity. Qed.
Print Assumptions closest_single_point_refuted.

Theorem closest_sloped_refuted : exists (p : pt) l q r,
  closestPointTo p l = Ok q /\ on_line l r /\ dist2 r p < dist2 q p.
Proof.
  exists (mkPoint (N := RNum) 1 0 0), [mkPoint (N := RNum) 0 0 0; mkPoint (N := RNum) 1 0 1].
  exists (p_closestPointInSegment RNum (mkPoint (N := RNum) 1 0 0) (mkPoint (N := RNum) 0 0 0) (mkPoint (N := RNum) 1 0 1)).
  exists (mkPoint (N := RNum) 1 0 1). split; [reflexivity|]. split.
  - left. exists 1. simpl. lra.
  - destruct (closest_param (mkPoint (N := RNum) 1 0 0) (mkPoint (N := RNum) 0 0 0) (mkPoint (N := RNum) 1 0 1)) as (X & Y & _).
    unfold dist2. rewrite X, Y. unfold p_dot, p_sub. simpl.
    match goal with |- context [clamp ?x] => replace x with (1 / 2) by field end.
    unfold clamp. rewrite Rmin_right by lra. rewrite Rmax_right by lra. lra.
Qed.
Print Assumptions closest_sloped_refuted.

(** Degenerate segments in floating point: 0/0 is clamped to the end point. *)
Example closest_degenerate_float :
  let a := mkPoint (N := FNum) 1%float 2%float 3%float in
  let q := p_closestPointInSegment FNum (p_default FNum) a a in
  (PrimFloat.eqb (px q) 1 && PrimFloat.eqb (py q) 2 && PrimFloat.eqb (pz q) 3)%bool = true.
Proof. vm_compute. reflexivity. Qed.

(** C65.  Non-parallel lines meet in the returned point and nowhere else. *)
Definition on_line_through (a b q : pt) : Prop :=
  exists t, px q = px a + t * (px b - px a) /\ py q = py a + t * (py b - py a).

Theorem intersection_on_both (a b c d : pt) :
  (px b - px a) * (py d - py c) - (py b - py a) * (px d - px c) <> 0 ->
  let q := p_intersectionOfLines RNum a b c d in
  on_line_through a b q /\ on_line_through c d q /\
  forall r, on_line_through a b r -> on_line_through c d r -> same_xy r q.
Proof.
  intros HD q.
  set (den := (px b - px a) * (py d - py c) - (py b - py a) * (px d - px c)) in *.
  assert (Hq : px q = ((px d - px c) * (px b * py a - py b * px a) - (px b - px a) * (px d * py c - py d * px c)) / den /\
               py q = ((py d - py c) * (px b * py a - py b * px a) - (py b - py a) * (px d * py c - py d * px c)) / den).
  { unfold q, p_intersectionOfLines.
    change (p_det RNum (p_sub RNum b a) (p_sub RNum d c)) with den. change (neqb RNum den (nofZ RNum 0)) with (Reqb den 0).
    destruct (Reqb den 0) eqn:Z; [apply Reqb_true in Z; tauto|]. simpl. auto. }
  destruct Hq as [X Y].
  assert (T : on_line_through a b q).
  { exists (((px c - px a) * (py d - py c) - (py c - py a) * (px d - px c)) / den). rewrite X, Y. unfold den in *. split; refine (_ : @eq R _ _); field; auto. }
  assert (U : on_line_through c d q).
  { exists (((px c - px a) * (py b - py a) - (py c - py a) * (px b - px a)) / den). rewrite X, Y. unfold den in *. split; refine (_ : @eq R _ _); field; auto. }
  split; auto. split; auto.
  intros r (t & Xt & Yt) (u & Xu & Yu). destruct T as (t' & Xt' & Yt'). destruct U as (u' & Xu' & Yu').
  assert (E : (t - t') * den = 0).
  { unfold den.
    transitivity ((px b - px a) * (t - t') * (py d - py c) - (py b - py a) * (t - t') * (px d - px c)); [ring|].
    replace ((px b - px a) * (t - t')) with ((u - u') * (px d - px c)) by lra.
    replace ((py b - py a) * (t - t')) with ((u - u') * (py d - py c)) by lra. ring. }
  apply Rmult_integral in E. destruct E as [E|E]; [|tauto]. assert (t = t') by lra. subst t'.
  split; lra.
Qed.
Print Assumptions intersection_on_both.

Example intersection_example :
  same_xy (p_intersectionOfLines RNum (mkPoint (N := RNum) 0 0 0) (mkPoint (N := RNum) 2 2 0)
    (mkPoint (N := RNum) 0 4 0) (mkPoint (N := RNum) 4 0 0)) (mkPoint (N := RNum) 2 2 0).
Proof.
  unfold same_xy, p_intersectionOfLines, p_det, p_sub. simpl.
  destruct (Reqb _ 0) eqn:Z; [apply Reqb_true in Z; lra|]. simpl. split; field.
Qed.

(** C66.  Polar coordinates: the point at the angle and distance of [b] from [a]
    is [b] (its x and y); conversely the angle to a point put at a positive
    distance is the given one up to turns; angles are normalised. *)
Theorem polar_round_trip (a b : pt) :
  same_xy (pointFromAngle a (angleFromPoint (p_sub RNum b a)) (p_distance a b)) b /\
  0 <= angleFromPoint (p_sub RNum b a) < 2 * PI /\
  forall angle d, 0 < d -> congruent (angleFromPoint (p_sub RNum (pointFromAngle a angle d) a)) angle /\
    p_distance a (pointFromAngle a angle d) = d.
Proof.
  split; [|split].
  - assert (E : p_distance a b = hyp (px (p_sub RNum b a)) (py (p_sub RNum b a))).
    { unfold p_distance, hyp. f_equal. simpl. ring. }
    rewrite E. destruct (angle_polar (p_sub RNum b a)) as [X Y]. unfold same_xy, pointFromAngle, p_getPointFromAngle.
    cbn [px py]. split.
    + change (px a + hyp (px (p_sub RNum b a)) (py (p_sub RNum b a)) * cos (angleFromPoint (p_sub RNum b a)) = px b).
      rewrite X. simpl. lra.
    + change (py a + hyp (px (p_sub RNum b a)) (py (p_sub RNum b a)) * sin (angleFromPoint (p_sub RNum b a)) = py b).
      rewrite Y. simpl. lra.
  - rewrite angleFromPoint_eq. apply mod2_range.
  - intros angle d Hd. pose proof (sin2_cos2 angle) as HSC. unfold Rsqr in HSC.
    set (v := p_sub RNum (pointFromAngle a angle d) a).
    assert (Vx : px v = d * cos angle) by (unfold v; simpl; lra).
    assert (Vy : py v = d * sin angle) by (unfold v; simpl; lra).
    assert (D : hyp (px v) (py v) = d).
    { unfold hyp. rewrite Vx, Vy. transitivity (R_sqrt.sqrt (d * d)); [|apply sqrt_square; lra]. f_equal.
      transitivity (d * d * (sin angle * sin angle + cos angle * cos angle)); [ring|]. rewrite HSC. ring. }
    destruct (angle_polar v) as [X Y]. rewrite D in X, Y. split.
    + apply angle_unique.
      * rewrite Vx in X. apply (Rmult_eq_reg_l d); lra.
      * rewrite Vy in Y. apply (Rmult_eq_reg_l d); lra.
    + transitivity (hyp (px v) (py v)); [|exact D]. unfold p_distance, hyp, v. f_equal. simpl. ring.
Qed.
Print Assumptions polar_round_trip.

(** The height is lost: the returned point has z = 0. *)
Theorem polar_height_refuted : exists a b : pt,
  pz a = pz b /\ pointFromAngle a (angleFromPoint (p_sub RNum b a)) (p_distance a b) <> b.
Proof.
  exists (mkPoint (N := RNum) 0 0 1), (mkPoint (N := RNum) 1 0 1). split; [reflexivity|].
  intro H. apply (f_equal pz) in H. simpl in H. lra.
Qed.
Print Assumptions polar_height_refuted.

Example polar_example : congruent (angleFromPoint (mkPoint (N := RNum) 0 (-2) 0)) (3 * (PI / 2)).
Proof.
  rewrite angleFromPoint_eq. eapply congruent_trans; [apply mod2_congr|]. simpl. unfold Ratan2.
  destruct (Rlt_dec 0 0); [lra|]. destruct (Rlt_dec 0 (-2)); [lra|]. destruct (Rlt_dec (-2) 0); [|lra].
  exists (-1)%Z. simpl. lra.
Qed.

(** C92.  The direction of travel at a point of a line is defined exactly for the
    points of a line with at least two points; inside it is half way between the
    incoming and the outgoing direction. *)
Theorem point_angle_defined (l : list pt) i :
  (exists a, mp_getPointAngle l i = Ok a) <-> (2 <= length l /\ i < length l)%nat.
Proof. apply pointAngle_defined. Qed.
Print Assumptions point_angle_defined.

Theorem point_angle_half_way (l : list pt) i p q r :
  nth_error l i = Some p -> nth_error l (S i) = Some q -> nth_error l (S (S i)) = Some r ->
  exists a, mp_getPointAngle l (S i) = Ok a /\
    let din := angleFromPoint (p_sub RNum q p) in
    let dout := angleFromPoint (p_sub RNum r q) in
    exists d, circular_distance din dout (2 * d) /\ circular_distance a din d /\ circular_distance a dout d.
Proof.
  intros Hp Hq Hr.
  assert (L : (S (S i) < length l)%nat) by (apply nth_error_Some; congruence).
  unfold mp_getPointAngle.
  replace (Nat.ltb (length l) 2) with false by (symmetry; apply Nat.ltb_ge; lia).
  replace (Nat.eqb (S i) 0) with false by auto.
  replace (Nat.eqb (S i) (length l - 1)) with false by (symmetry; apply Nat.eqb_neq; lia).
  unfold mp_getInAngle, mp_getOutAngle, vec_at. rewrite Hp, Hq, Hr. cbn [bind].
  replace (match l with [] => false | _ => Nat.leb (length l - 1) (S i) end) with false.
  2: { destruct l; auto. symmetry. apply Nat.leb_gt. lia. }
  cbn [bind].
  set (din := angleFromPoint (p_sub RNum q p)). set (dout := angleFromPoint (p_sub RNum r q)).
  exists (getAngleAvg din dout). split; [reflexivity|].
  exists (getAngleDiffAbs din dout / 2). destruct (angle_average_half din dout) as [H1 H2].
  split; [|auto]. replace (2 * (getAngleDiffAbs din dout / 2)) with (getAngleDiffAbs din dout) by lra. apply diffAbs_circular.
Qed.
Print Assumptions point_angle_half_way.
Example point_angle_example : exists a, mp_getPointAngle sq 1 = Ok a.
Proof. apply point_angle_defined. simpl. lia. Qed.

(** C102.  atan2 gives the polar angle in (- pi, pi]; the angle at three points is
    the turn that takes the direction of the first leg to that of the second. *)
Theorem atan2_principal (y x : R) :
  - PI < Ratan2 y x <= PI /\ hyp x y * cos (Ratan2 y x) = x /\ hyp x y * sin (Ratan2 y x) = y.
Proof.
  split; [|apply atan2_polar]. pose proof PI_RGT_0. unfold Ratan2. pose proof (atan_bound (y / x)).
  destruct (Rlt_dec 0 x); [lra|]. destruct (Rlt_dec x 0) as [Hx|].
  - assert (Hi : / x < 0) by (apply Rinv_lt_0_compat; auto). destruct (Rle_dec 0 y) as [Hy|Hy].
    + assert (atan (y / x) <= 0); [|lra]. destruct (Req_dec y 0) as [->|Hn].
      * unfold Rdiv. rewrite Rmult_0_l, atan_0. lra.
      * assert (y / x < 0) by (unfold Rdiv; nra). rewrite <- atan_0. left. apply atan_increasing. auto.
    + assert (0 < y / x) by (unfold Rdiv; nra). assert (atan 0 < atan (y / x)) by (apply atan_increasing; auto).
      rewrite atan_0 in *. lra.
  - destruct (Rlt_dec 0 y); [lra|]. destruct (Rlt_dec y 0); lra.
Qed.
Print Assumptions atan2_principal.

Theorem turn_angle (p1 p2 p3 : pt) : let A := angleFromPoints3 p1 p2 p3 in
  0 <= A < 2 * PI /\
  p_distance p1 p2 * (px p3 - px p2) = p_distance p2 p3 * ((px p2 - px p1) * cos A - (py p2 - py p1) * sin A) /\
  p_distance p1 p2 * (py p3 - py p2) = p_distance p2 p3 * ((px p2 - px p1) * sin A + (py p2 - py p1) * cos A).
Proof.
  intro A. unfold A, angleFromPoints3. split; [apply mod2_range|].
  rewrite (cos_congruent _ _ (mod2_congr _)), (sin_congruent _ _ (mod2_congr _)).
  destruct (angle_polar (p_sub RNum p3 p2)) as [X Y]. destruct (angle_polar (p_sub RNum p2 p1)) as [X' Y'].
  set (a := angleFromPoint (p_sub RNum p2 p1)) in *. set (b := angleFromPoint (p_sub RNum p3 p2)) in *.
  assert (E : p_distance p1 p2 = hyp (px (p_sub RNum p2 p1)) (py (p_sub RNum p2 p1))).
  { unfold p_distance, hyp. f_equal. simpl. ring. }
  assert (E' : p_distance p2 p3 = hyp (px (p_sub RNum p3 p2)) (py (p_sub RNum p3 p2))).
  { unfold p_distance, hyp. f_equal. simpl. ring. }
  rewrite <- E in X', Y'. rewrite <- E' in X, Y. simpl in X, Y, X', Y'.
  change (px p3 + - px p2) with (px p3 - px p2) in X. change (py p3 + - py p2) with (py p3 - py p2) in Y.
  rewrite <- X, <- Y, <- X', <- Y', cos_minus, sin_minus.
  pose proof (sin2_cos2 a) as H. unfold Rsqr in H.
  set (r := p_distance p1 p2). set (s := p_distance p2 p3).
  split.
  - transitivity (r * s * cos b * (sin a * sin a + cos a * cos a)); [rewrite H; ring|ring].
  - transitivity (r * s * sin b * (sin a * sin a + cos a * cos a)); [rewrite H; ring|ring].
Qed.
Print Assumptions turn_angle.

(** A quarter turn to the left. *)
Example turn_angle_example : let A := angleFromPoints3 (mkPoint (N := RNum) 0 0 0) (mkPoint (N := RNum) 1 0 0) (mkPoint (N := RNum) 1 1 0) in
  cos A = 0 /\ sin A = 1.
Proof.
  intro A. destruct (turn_angle (mkPoint (N := RNum) 0 0 0) (mkPoint (N := RNum) 1 0 0) (mkPoint (N := RNum) 1 1 0)) as (_ & X & Y).
  fold A in X, Y. unfold p_distance in X, Y. cbn [px py] in X, Y.
  replace (R_sqrt.sqrt _) with 1 in X by (symmetry; transitivity (R_sqrt.sqrt 1); [f_equal; ring|apply sqrt_1]).
  replace (R_sqrt.sqrt _) with 1 in Y by (symmetry; transitivity (R_sqrt.sqrt 1); [f_equal; ring|apply sqrt_1]).
  match type of X with context [R_sqrt.sqrt ?e] => replace (R_sqrt.sqrt e) with 1 in X by (symmetry; transitivity (R_sqrt.sqrt 1); [f_equal; ring|apply sqrt_1]) end.
  match type of Y with context [R_sqrt.sqrt ?e] => replace (R_sqrt.sqrt e) with 1 in Y by (symmetry; transitivity (R_sqrt.sqrt 1); [f_equal; ring|apply sqrt_1]) end.
  split; lra.
Qed.

(** C92, C64: errors. *)
Theorem angle_errors (l : list pt) (p : pt) i :
  closestPointTo p [] = Throw OutOfRange /\
  mp_getInAngle l 0 = Throw InvalidArgument /\
  ((0 < i)%nat -> (length l <= i)%nat -> mp_getInAngle l i = Throw OutOfRange) /\
  (l <> [] -> (length l <= S i)%nat -> mp_getOutAngle l i = Throw InvalidArgument) /\
  mp_getOutAngle [] i = Throw OutOfRange /\
  ((length l < 2)%nat -> mp_getPointAngle l i = Throw InvalidArgument) /\
  ((2 <= length l <= i)%nat -> mp_getPointAngle l i = Throw OutOfRange) /\
  (forall a b, nth_error l i = Some a -> nth_error l (S i) = Some b ->
     mp_getInAngle l (S i) = Ok (angleFromPoint (p_sub RNum b a)) /\ mp_getOutAngle l i = Ok (angleFromPoint (p_sub RNum b a))).
Proof.
  split; [reflexivity|]. split; [reflexivity|].
  assert (I : (0 < i)%nat -> (length l <= i)%nat -> mp_getInAngle l i = Throw OutOfRange).
  { intros H1 H2. destruct i as [|i]; [lia|]. unfold mp_getInAngle, vec_at.
    replace (nth_error l (S i)) with (@None pt) by (symmetry; apply nth_error_None; lia). reflexivity. }
  split; [exact I|]. split; [|split; [|split; [|split]]].
  - intros H1 H2. unfold mp_getOutAngle. destruct l as [|a l]; [congruence|].
    replace (Nat.leb (length (a :: l) - 1) i) with true; [reflexivity|]. symmetry. apply Nat.leb_le. lia.
  - unfold mp_getOutAngle, vec_at. reflexivity.
  - intro H. unfold mp_getPointAngle. apply Nat.ltb_lt in H. rewrite H. reflexivity.
  - intros [H1 H2]. unfold mp_getPointAngle.
    replace (Nat.ltb (length l) 2) with false by (symmetry; apply Nat.ltb_ge; lia).
    replace (Nat.eqb i 0) with false by (symmetry; apply Nat.eqb_neq; lia).
    replace (Nat.eqb i (length l - 1)) with false by (symmetry; apply Nat.eqb_neq; lia).
    rewrite I by lia. reflexivity.
  - intros a b Ha Hb. unfold mp_getInAngle, mp_getOutAngle, vec_at. rewrite Ha, Hb.
    assert (H : (S i < length l)%nat) by (apply nth_error_Some; congruence).
    split; [reflexivity|]. destruct l as [|u l]; [simpl in H; lia|].
    replace (Nat.leb (length (u :: l) - 1) i) with false; [reflexivity|]. symmetry. apply Nat.leb_gt. lia.
Qed.
Print Assumptions angle_errors.

(** The two points of a line have the direction of the line; a third one is out of range. *)
Example angle_errors_ex : let l := [mkPoint (N := RNum) 0 0 0; mkPoint (N := RNum) 1 0 0] in
  mp_getOutAngle l 0 = mp_getInAngle l 1 /\ mp_getPointAngle l 2 = Throw OutOfRange /\ mp_getOutAngle l 1 = Throw InvalidArgument.
Proof.
  intro l. destruct (angle_errors l (mkPoint (N := RNum) 0 0 0) 0) as (_ & _ & _ & _ & _ & _ & _ & H).
  destruct (H _ _ eq_refl eq_refl) as [-> ->]. split; [reflexivity|]. split.
  - apply (angle_errors l (mkPoint (N := RNum) 0 0 0) 2). simpl. lia.
  - apply (angle_errors l (mkPoint (N := RNum) 0 0 0) 1); [discriminate|simpl; lia].
Qed.
