(** Lemmas about swath lines of moved, turned and scaled cells. *)
From Coq Require Import List Arith ZArith Lia Bool Reals Lra Psatz Permutation.
From Verif Require Import Outcome ListAux Num Swath_Model Swath_Props Point_Model Angle_Model Angle_Spec Angle_Proofs Angle_Proofs2.
From Verif Require Import Objective_Model SwathGen_Model SwathGen_Spec SwathGen_Spec2 SwathGen_Proofs SwathGen_Proofs2.
Import ListNotations.
Open Scope R_scope.

Lemma rigid_along t u v a p : along (a + t) (rigid t u v p) = along a p + (u * cos (a + t) + v * sin (a + t)).
Proof.
  unfold along, rigid. cbn [px py]. rewrite cos_plus, sin_plus. pose proof (sin2_cos2 t) as H. unfold Rsqr in H.
  replace ((px p * cos t - py p * sin t + u) * (cos a * cos t - sin a * sin t) + (px p * sin t + py p * cos t + v) * (sin a * cos t + cos a * sin t))
    with ((px p * cos a + py p * sin a) * (sin t * sin t + cos t * cos t) + (u * (cos a * cos t - sin a * sin t) + v * (sin a * cos t + cos a * sin t))) by ring.
  rewrite H. ring.
Qed.
Lemma rigid_across t u v a p : across_of (a + t) (rigid t u v p) = across_of a p + (- u * sin (a + t) + v * cos (a + t)).
Proof.
  unfold across_of, rigid. cbn [px py]. rewrite cos_plus, sin_plus. pose proof (sin2_cos2 t) as H. unfold Rsqr in H.
  replace (- (px p * cos t - py p * sin t + u) * (sin a * cos t + cos a * sin t) + (px p * sin t + py p * cos t + v) * (cos a * cos t - sin a * sin t))
    with ((- px p * sin a + py p * cos a) * (sin t * sin t + cos t * cos t) + (- u * (sin a * cos t + cos a * sin t) + v * (cos a * cos t - sin a * sin t))) by ring.
  rewrite H. ring.
Qed.

(** Affine images of an extent. *)
Lemma extent_affine f (g : pt -> pt) f' k c l lo hi : 0 < k -> (forall p, f' (g p) = k * f p + c) ->
  extent f l lo hi -> extent f' (map g l) (k * lo + c) (k * hi + c).
Proof.
  intros Hk E ((p & Hp & Ep) & (q & Hq & Eq) & H). apply extent_map. split; [exists p; rewrite E, Ep; auto|].
  split; [exists q; rewrite E, Eq; auto|]. intros r Hr. rewrite E. specialize (H r Hr). nra.
Qed.
Lemma extent_opp f (f' : pt -> R) l lo hi : (forall p, f' p = - f p) -> extent f l lo hi -> extent f' l (- hi) (- lo).
Proof.
  intros E ((p & Hp & Ep) & (q & Hq & Eq) & H). split; [exists q; rewrite E, Eq; auto|]. split; [exists p; rewrite E, Ep; auto|].
  intros r Hr. rewrite E. specialize (H r Hr). lra.
Qed.

Lemma line_at_rigid t u v a x0 x1 y0 y1 y :
  line_at (a + t) (x0 + (u * cos (a + t) + v * sin (a + t))) (x1 + (u * cos (a + t) + v * sin (a + t)))
    (y0 + (- u * sin (a + t) + v * cos (a + t))) (y1 + (- u * sin (a + t) + v * cos (a + t))) y =
  map (rigid t u v) (line_at a x0 x1 y0 y1 y).
Proof.
  unfold line_at. cbn [map]. unfold rotateFromPoint, p_rotateFromPoint, rigid, origin. cbn [px py pz].
  pose proof (sin2_cos2 (a + t)) as H. unfold Rsqr in H.
  set (C := cos (a + t)) in *. set (S := sin (a + t)) in *.
  assert (EC : C = cos a * cos t - sin a * sin t) by apply cos_plus.
  assert (ES : S = sin a * cos t + cos a * sin t) by apply sin_plus.
  assert (P : forall x y : R, (mkPoint (N := RNum) (((x + (u * C + v * S)) - 0) * C - ((y + (- u * S + v * C)) - 0) * S + 0)
     (((x + (u * C + v * S)) - 0) * S + ((y + (- u * S + v * C)) - 0) * C + 0) 0) =
    mkPoint (N := RNum) (((x - 0) * cos a - (y - 0) * sin a + 0) * cos t - ((x - 0) * sin a + (y - 0) * cos a + 0) * sin t + u)
     (((x - 0) * cos a - (y - 0) * sin a + 0) * sin t + ((x - 0) * sin a + (y - 0) * cos a + 0) * cos t + v) 0).
  { intros x z. apply f_equal3; auto.
    - refine (_ : @eq R _ _). transitivity (x * C - z * S + u * (S * S + C * C)); [ring|]. rewrite H, EC, ES. ring.
    - refine (_ : @eq R _ _). transitivity (x * S + z * C + v * (S * S + C * C)); [ring|]. rewrite H, EC, ES. ring. }
  f_equal; [|f_equal].
  - refine (eq_trans _ (P (x0 - (x1 - x0 + (y1 - y0))) (y0 + y))). simpl. apply f_equal3; auto; refine (_ : @eq R _ _); ring.
  - refine (eq_trans _ (P (x0 + (x1 - x0 + (y1 - y0))) (y0 + y))). simpl. apply f_equal3; auto; refine (_ : @eq R _ _); ring.
Qed.

Lemma concat_map_map {A B} (g : A -> B) (l : list (list A)) : concat (map (map g) l) = map g (concat l).
Proof. symmetry. apply concat_map. Qed.

Lemma lines_rigid fuel ov a w poly t u v : concat poly <> [] ->
  sg_lines fuel ov (a + t) w (map (map (rigid t u v)) poly) =
  do ls <- sg_lines fuel ov a w poly; Ok (map (map (rigid t u v)) ls).
Proof.
  intro Hp. pose proof (env_extent (along a) poly Hp) as HX. pose proof (env_extent (across_of a) poly Hp) as HY.
  set (x0 := env_min (along a) poly) in *. set (x1 := env_max (along a) poly) in *.
  set (y0 := env_min (across_of a) poly) in *. set (y1 := env_max (across_of a) poly) in *.
  set (cu := u * cos (a + t) + v * sin (a + t)). set (cv := - u * sin (a + t) + v * cos (a + t)).
  assert (HX' : extent (along (a + t)) (concat (map (map (rigid t u v)) poly)) (x0 + cu) (x1 + cu)).
  { rewrite concat_map_map. replace (x0 + cu) with (1 * x0 + cu) by ring. replace (x1 + cu) with (1 * x1 + cu) by ring.
    apply (extent_affine (along a)); auto; [lra|]. intro p. rewrite rigid_along. fold cu. ring. }
  assert (HY' : extent (across_of (a + t)) (concat (map (map (rigid t u v)) poly)) (y0 + cv) (y1 + cv)).
  { rewrite concat_map_map. replace (y0 + cv) with (1 * y0 + cv) by ring. replace (y1 + cv) with (1 * y1 + cv) by ring.
    apply (extent_affine (across_of a)); auto; [lra|]. intro p. rewrite rigid_across. fold cv. ring. }
  rewrite (lines_eq (a + t) w _ _ _ _ _ HX' HY'), (lines_eq a w poly _ _ _ _ HX HY).
  replace (y1 + cv - (y0 + cv)) with (y1 - y0) by ring.
  destruct (sg_curve_ys RNum fuel ov (y1 - y0) w (sg_curve_y0 RNum w)) as [ys| | |]; auto. cbn [bind]. f_equal.
  rewrite map_map. apply map_ext. intro y. unfold cu, cv. apply line_at_rigid.
Qed.

(** Scaling. *)
Lemma ys_zoom k ov (H w : R) : 0 < k -> forall fuel (y : R),
  sg_curve_ys RNum fuel ov (k * H) (k * w) (k * y) = do ys <- sg_curve_ys RNum fuel ov H w y; Ok (map (Rmult k) ys).
Proof.
  intros Hk. assert (E : forall y : R, nltb RNum (nadd RNum (k * y) (if ov then nofZ RNum 0 else nmul RNum (ndiv RNum (nofZ RNum 1) (nofZ RNum 2)) (k * w))) (k * H) =
    nltb RNum (nadd RNum y (if ov then nofZ RNum 0 else nmul RNum (ndiv RNum (nofZ RNum 1) (nofZ RNum 2)) w)) H).
  { intro y. change (nltb RNum) with Rltb. simpl. set (c := if ov then 0 else 1 / 2 * w).
    replace (if ov then 0 else 1 / 2 * (k * w)) with (k * c) by (unfold c; destruct ov; ring).
    destruct (Rltb (y + c) H) eqn:E.
    - apply Rltb_true in E. apply Rltb_true. nra.
    - apply Rltb_false in E. apply Rltb_false. nra. }
  induction fuel as [|fuel IH]; intro y; cbn [sg_curve_ys]; rewrite E;
    destruct (nltb RNum (nadd RNum y (if ov then nofZ RNum 0 else nmul RNum (ndiv RNum (nofZ RNum 1) (nofZ RNum 2)) w)) H); auto.
  replace (nadd RNum (k * y) (k * w)) with (k * (nadd RNum y w)) by (simpl; ring).
  rewrite IH. destruct (sg_curve_ys RNum fuel ov H w (nadd RNum y w)); auto.
Qed.

Lemma lines_zoom fuel ov a w poly k : 0 < k -> concat poly <> [] ->
  sg_lines fuel ov a (k * w) (map (map (zoom k)) poly) =
  do ls <- sg_lines fuel ov a w poly; Ok (map (map (zoom k)) ls).
Proof.
  intros Hk Hp. pose proof (env_extent (along a) poly Hp) as HX. pose proof (env_extent (across_of a) poly Hp) as HY.
  set (x0 := env_min (along a) poly) in *. set (x1 := env_max (along a) poly) in *.
  set (y0 := env_min (across_of a) poly) in *. set (y1 := env_max (across_of a) poly) in *.
  assert (HX' : extent (along a) (concat (map (map (zoom k)) poly)) (k * x0 + 0) (k * x1 + 0)).
  { rewrite concat_map_map. apply (extent_affine (along a)); auto. intro p. unfold along, zoom. cbn [px py]. ring. }
  assert (HY' : extent (across_of a) (concat (map (map (zoom k)) poly)) (k * y0 + 0) (k * y1 + 0)).
  { rewrite concat_map_map. apply (extent_affine (across_of a)); auto. intro p. unfold across_of, zoom. cbn [px py]. ring. }
  rewrite (lines_eq a (k * w) _ _ _ _ _ HX' HY'), (lines_eq a w poly _ _ _ _ HX HY).
  replace (k * y1 + 0 - (k * y0 + 0)) with (k * (y1 - y0)) by ring.
  replace (sg_curve_y0 RNum (k * w)) with (k * (sg_curve_y0 RNum w : R)) by (unfold sg_curve_y0; simpl; ring).
  rewrite ys_zoom by auto. destruct (sg_curve_ys RNum fuel ov (y1 - y0) w (sg_curve_y0 RNum w)) as [ys| | |]; auto. cbn [bind]. f_equal.
  rewrite !map_map. apply map_ext. intro y. unfold line_at. cbn [map]. unfold rotateFromPoint, p_rotateFromPoint, zoom, origin. cbn [px py pz].
  simpl. f_equal; [|f_equal]; apply f_equal3; auto; refine (_ : @eq R _ _); ring.
Qed.
