(** Proofs about swath generation, brute force and headlands. *)
From Coq Require Import List Arith ZArith Lia Bool Reals Lra Psatz Permutation.
From Verif Require Import Outcome ListAux Num Swath_Model Point_Model Angle_Model Angle_Spec Angle_Proofs Angle_Proofs2.
From Verif Require Import Objective_Model SwathGen_Model SwathGen_Spec.
Import ListNotations.
Open Scope R_scope.

(** Bounds. *)
Lemma fold_min_ok (f : pt -> R) l : forall a, let m := fold_left (fun m q => Rmin m (f q)) l a in
  (m = a \/ exists p, In p l /\ f p = m) /\ m <= a /\ forall p, In p l -> m <= f p.
Proof.
  induction l as [|p l IH]; intro a; simpl.
  - split; auto. split; [lra|]. tauto.
  - destruct (IH (Rmin a (f p))) as (H1 & H2 & H3). split; [|split].
    + destruct H1 as [H1|(q & Hq & E)]; [|right; exists q; auto]. rewrite H1.
      unfold Rmin. destruct (Rle_dec a (f p)); [left; auto|right; exists p; auto].
    + pose proof (Rmin_l a (f p)). lra.
    + intros q [<-|Hq]; auto. pose proof (Rmin_r a (f p)). lra.
Qed.

Lemma fold_max_ok (f : pt -> R) l : forall a, let m := fold_left (fun m q => Rmax m (f q)) l a in
  (m = a \/ exists p, In p l /\ f p = m) /\ a <= m /\ forall p, In p l -> f p <= m.
Proof.
  induction l as [|p l IH]; intro a; simpl.
  - split; auto. split; [lra|]. tauto.
  - destruct (IH (Rmax a (f p))) as (H1 & H2 & H3). split; [|split].
    + destruct H1 as [H1|(q & Hq & E)]; [|right; exists q; auto]. rewrite H1.
      unfold Rmax. destruct (Rle_dec a (f p)); [right; exists p; auto|left; auto].
    + pose proof (Rmax_l a (f p)). lra.
    + intros q [<-|Hq]; auto. pose proof (Rmax_r a (f p)). lra.
Qed.

Lemma env_extent (f : pt -> R) c : concat c <> [] -> extent f (concat c) (env_min f c) (env_max f c).
Proof.
  intro H. unfold env_min, env_max. destruct (concat c) as [|p l]; [congruence|].
  destruct (fold_min_ok f l (f p)) as (A1 & A2 & A3). destruct (fold_max_ok f l (f p)) as (B1 & B2 & B3).
  split; [|split].
  - destruct A1 as [A1|(q & Hq & E)]; [exists p; split; [left|]; auto|exists q; split; [right|]; auto].
  - destruct B1 as [B1|(q & Hq & E)]; [exists p; split; [left|]; auto|exists q; split; [right|]; auto].
  - intros q [<-|Hq]; split; auto.
Qed.

Lemma extent_unique f l a b a' b' : extent f l a b -> extent f l a' b' -> a = a' /\ b = b'.
Proof.
  intros ((p & Hp & Ep) & (q & Hq & Eq) & H) ((p' & Hp' & Ep') & (q' & Hq' & Eq') & H').
  pose proof (H p' Hp'). pose proof (H q' Hq'). pose proof (H' p Hp). pose proof (H' q Hq). lra.
Qed.

Lemma extent_map f g (l : list pt) a b : extent f (map g l) a b <-> extent (fun p => f (g p)) l a b.
Proof.
  unfold extent. split; intros ((p & Hp & Ep) & (q & Hq & Eq) & H).
  - apply in_map_iff in Hp. destruct Hp as (p' & <- & Hp). apply in_map_iff in Hq. destruct Hq as (q' & <- & Hq).
    split; [eauto|]. split; [eauto|]. intros r Hr. apply H. apply in_map. auto.
  - split; [exists (g p); split; auto; apply in_map; auto|]. split; [exists (g q); split; auto; apply in_map; auto|].
    intros r Hr. apply in_map_iff in Hr. destruct Hr as (r' & <- & Hr). auto.
Qed.

Lemma extent_ext f g l a b : (forall p, f p = g p) -> extent f l a b -> extent g l a b.
Proof.
  intros E ((p & Hp & Ep) & (q & Hq & Eq) & H). split; [exists p; rewrite <- E; auto|]. split; [exists q; rewrite <- E; auto|].
  intros r Hr. rewrite <- E. auto.
Qed.

(** The driving frame. *)
Lemma rot_back_x a p : px (rotateFromPoint origin (- a) p) = along a p.
Proof. rewrite (proj1 (rotate_xy _ _ _)), cos_neg, sin_neg. unfold along. simpl. ring. Qed.
Lemma rot_back_y a p : py (rotateFromPoint origin (- a) p) = across_of a p.
Proof. rewrite (proj2 (rotate_xy _ _ _)), cos_neg, sin_neg. unfold across_of. simpl. ring. Qed.
Lemma rot_along a p : along a (rotateFromPoint origin a p) = px p.
Proof.
  unfold along. rewrite (proj1 (rotate_xy _ _ _)), (proj2 (rotate_xy _ _ _)). simpl.
  pose proof (sin2_cos2 a) as H. unfold Rsqr in H.
  transitivity (px p * (sin a * sin a + cos a * cos a)); [ring|]. rewrite H. ring.
Qed.
Lemma rot_across a p : across_of a (rotateFromPoint origin a p) = py p.
Proof.
  unfold across_of. rewrite (proj1 (rotate_xy _ _ _)), (proj2 (rotate_xy _ _ _)). simpl.
  pose proof (sin2_cos2 a) as H. unfold Rsqr in H.
  transitivity (py p * (sin a * sin a + cos a * cos a)); [ring|]. rewrite H. ring.
Qed.

(** Distances in the frame. *)
Lemma frame_dist2 a p q : dist2 p q = (along a p - along a q) * (along a p - along a q) +
  (across_of a p - across_of a q) * (across_of a p - across_of a q).
Proof.
  unfold dist2, along, across_of. pose proof (sin2_cos2 a) as H. unfold Rsqr in H.
  set (s := sin a) in *. set (c := cos a) in *.
  transitivity (((px p - px q) * (px p - px q) + (py p - py q) * (py p - py q)) * (s * s + c * c)); [rewrite H; ring|ring].
Qed.

(** The loop. *)
Definition thr (ov : bool) (w : R) : R := if ov then 0 else 1 / 2 * w.

Lemma ys_run ov (H w : R) n : forall fuel (y : R), (n <= fuel)%nat ->
  (forall i, (i < n)%nat -> y + INR i * w + thr ov w < H) -> H <= y + INR n * w + thr ov w ->
  sg_curve_ys RNum fuel ov H w y = Ok (map (fun i => y + (INR i + 1) * w) (seq 0 n)).
Proof.
  induction n as [|n IH]; intros fuel y Hf Hi He.
  - destruct fuel; cbn [sg_curve_ys];
      replace (nltb RNum _ H) with false; auto; symmetry; apply Rltb_false; unfold thr in He; simpl in *; destruct ov; lra.
  - destruct fuel as [|fuel]; [lia|]. cbn [sg_curve_ys].
    replace (nltb RNum _ H) with true.
    2: { symmetry. apply Rltb_true. specialize (Hi 0%nat). unfold thr in Hi. simpl in *. destruct ov; lra || (apply Hi in Hf; lra) || (assert (0 < S n)%nat by lia; specialize (Hi H0); lra). }
    change (nadd RNum y w) with (y + w).
    rewrite (IH fuel (y + w)); [|lia| |].
    + cbn [bind seq map]. f_equal. f_equal; [simpl; ring|]. rewrite <- seq_shift, map_map. apply map_ext. intro i. rewrite S_INR. ring.
    + intros i Hin. specialize (Hi (S i)). rewrite S_INR in Hi. assert (S i < S n)%nat by lia. specialize (Hi H0). lra.
    + rewrite S_INR in He. lra.
Qed.

Lemma ceil_nat x : exists n : nat, (forall i, (i < n)%nat -> INR i < x) /\ x <= INR n /\ (0 < x -> INR n < x + 1) /\ (x <= 0 -> n = 0%nat).
Proof.
  destruct (Rle_dec x 0) as [Hx|Hx].
  - exists 0%nat. split; [lia|]. simpl. split; [lra|]. split; [lra|auto].
  - set (z := (1 + - up (- x) + 0)%Z). destruct (archimed (- x)) as [H1 H2].
    assert (Hz : x <= IZR z < x + 1).
    { unfold z. rewrite !plus_IZR, opp_IZR. lra. }
    assert (Hp : (0 <= z)%Z) by (apply le_IZR; lra).
    exists (Z.to_nat z). rewrite !INR_IZR_INZ, Z2Nat.id by auto. split; [|split; [lra|split; [lra|lra]]].
    intros i Hi. rewrite INR_IZR_INZ. assert (Z.of_nat i <= z - 1)%Z by lia. apply IZR_le in H. rewrite minus_IZR in H. lra.
Qed.

(** Number of lines: the smallest n with H <= y0 + n w + t. *)
Lemma ys_count ov (H w : R) : 0 < w -> exists n : nat,
  (forall fuel, (n <= fuel)%nat -> sg_curve_ys RNum fuel ov H w (sg_curve_y0 RNum w) =
     Ok (map (fun i => (INR i + / 2) * w) (seq 0 n))) /\
  (forall i, (i < n)%nat -> (INR i - (if ov then / 2 else 0)) * w < H) /\
  H <= (INR n - (if ov then / 2 else 0)) * w.
Proof.
  intro Hw. set (e := if ov then / 2 else 0).
  destruct (ceil_nat (H / w + e)) as (n & A & B & _).
  assert (EH : H = H / w * w) by (field; lra).
  assert (A' : forall i, (i < n)%nat -> (INR i - e) * w < H).
  { intros i Hi. specialize (A i Hi). rewrite EH. apply Rmult_lt_compat_r; lra. }
  assert (B' : H <= (INR n - e) * w) by (rewrite EH at 1; apply Rmult_le_compat_r; lra).
  exists n. split; [|auto].
  intros fuel Hf. rewrite (ys_run ov H w n fuel).
  - f_equal. apply map_ext. intro i. unfold sg_curve_y0. simpl. refine (_ : @eq R _ _). field.
  - auto.
  - intros i Hi. specialize (A' i Hi). unfold e, thr, sg_curve_y0 in *. simpl. destruct ov; lra.
  - unfold e, thr, sg_curve_y0 in *. simpl. destruct ov; lra.
Qed.

(** No positive width: each round leaves the condition true. *)
Lemma ys_hang ov (H w : R) fuel : forall y : R, w <= 0 -> y + thr ov w < H -> sg_curve_ys RNum fuel ov H w y = Hang.
Proof.
  induction fuel as [|fuel IH]; intros y Hw Hy; cbn [sg_curve_ys].
  - replace (nltb RNum _ H) with true; auto. symmetry. apply Rltb_true. unfold thr in Hy. simpl in *. destruct ov; lra.
  - replace (nltb RNum _ H) with true.
    + change (nadd RNum y w) with (y + w). rewrite IH; auto. lra.
    + symmetry. apply Rltb_true. unfold thr in Hy. simpl in *. destruct ov; lra.
Qed.

Lemma ys_none ov (H w : R) fuel (y : R) : H <= y + thr ov w -> sg_curve_ys RNum fuel ov H w y = Ok [].
Proof.
  intro Hy. destruct fuel; cbn [sg_curve_ys]; replace (nltb RNum _ H) with false; auto;
    symmetry; apply Rltb_false; unfold thr in Hy; simpl in *; destruct ov; lra.
Qed.

Section Lines.
  Variables (a w : R) (poly : rcell) (x0 x1 y0 y1 : R).
  Hypothesis HX : extent (along a) (concat poly) x0 x1.
  Hypothesis HY : extent (across_of a) (concat poly) y0 y1.

  Lemma poly_ne : concat poly <> [].
  Proof. destruct HX as ((p & Hp & _) & _). intro E. rewrite E in Hp. destruct Hp. Qed.

  Lemma concat_rot : concat (cell_rotate origin (- a) poly) = map (rotateFromPoint origin (- a)) (concat poly).
  Proof. unfold cell_rotate. rewrite concat_map. auto. Qed.

  Lemma rot_ne : concat (cell_rotate origin (- a) poly) <> [].
  Proof. rewrite concat_rot. pose proof poly_ne. destruct (concat poly); [congruence|discriminate]. Qed.

  Lemma rot_env : env_min px (cell_rotate origin (- a) poly) = x0 /\ env_max px (cell_rotate origin (- a) poly) = x1 /\
    env_min py (cell_rotate origin (- a) poly) = y0 /\ env_max py (cell_rotate origin (- a) poly) = y1.
  Proof.
    pose proof (env_extent px _ rot_ne) as EX. pose proof (env_extent py _ rot_ne) as EY.
    rewrite concat_rot in EX at 1. rewrite concat_rot in EY at 1. apply (proj1 (extent_map px (rotateFromPoint origin (- a)) _ _ _)) in EX. apply (proj1 (extent_map py (rotateFromPoint origin (- a)) _ _ _)) in EY.
    apply (extent_ext _ (along a)) in EX; [|intro; apply rot_back_x].
    apply (extent_ext _ (across_of a)) in EY; [|intro; apply rot_back_y].
    destruct (extent_unique _ _ _ _ _ _ EX HX). destruct (extent_unique _ _ _ _ _ _ EY HY). auto.
  Qed.

  (** The line at height y above the lower border. *)
  Definition line_at (y : R) : list pt :=
    map (rotateFromPoint origin a)
      [mkPoint (N := RNum) (x0 - ((x1 - x0) + (y1 - y0))) (y0 + y) 0; mkPoint (N := RNum) (x0 + ((x1 - x0) + (y1 - y0))) (y0 + y) 0].

  Lemma lines_eq fuel ov : sg_lines fuel ov a w poly =
    do ys <- sg_curve_ys RNum fuel ov (y1 - y0) w (sg_curve_y0 RNum w); Ok (map line_at ys).
  Proof.
    destruct rot_env as (E1 & E2 & E3 & E4). unfold sg_lines, cell_getHeight, cell_createStraightLongLine, cell_getMinSafeLength.
    rewrite E1, E2, E3, E4. destruct (sg_curve_ys RNum fuel ov (y1 - y0) w (sg_curve_y0 RNum w)); auto.
    cbn [bind]. f_equal. apply map_ext. intro y. unfold line_at. f_equal. unfold pointFromAngle, p_getPointFromAngle, p_add.
    replace (PI + 0) with PI by ring. rewrite cos_0, sin_0, cos_PI, sin_PI. cbn [map px py pz].
    simpl. f_equal; [|f_equal]; apply f_equal3; refine (_ : @eq R _ _); ring.
  Qed.

  Lemma line_at_shape y : exists p q, line_at y = [p; q] /\ across_of a p = y0 + y /\ across_of a q = y0 + y /\
    along a p = x0 - ((x1 - x0) + (y1 - y0)) /\ along a q = x1 + (y1 - y0).
  Proof.
    do 2 eexists. split; [reflexivity|]. rewrite !rot_across, !rot_along. cbn [px py]. split; auto. split; auto. split; [ring|].
    simpl. lra.
  Qed.

  Lemma box_ok : x0 <= x1 /\ y0 <= y1.
  Proof.
    destruct HX as ((p & Hp & E) & _ & H). specialize (H p Hp). destruct HY as ((q & Hq & E') & _ & H'). specialize (H' q Hq). lra.
  Qed.

  Lemma line_within y r q : x0 <= along a q <= x1 -> Rabs (across_of a q - (y0 + y)) <= r -> within r (line_at y) q.
  Proof.
    intros Hx Hy. pose proof box_ok as [B1 B2]. pose proof (Rabs_pos (across_of a q - (y0 + y))) as HP.
    set (L := (x1 - x0) + (y1 - y0)).
    exists (rotateFromPoint origin a (mkPoint (N := RNum) (along a q) (y0 + y) 0)). split.
    - unfold line_at. cbn [map on_line]. left. fold L.
      destruct (Req_EM_T L 0) as [HL|HL].
      + exists 0. assert (along a q = x0) by (unfold L in HL; lra). rewrite H. rewrite HL.
        split; [lra|]. rewrite !(proj1 (rotate_xy _ _ _)), !(proj2 (rotate_xy _ _ _)). simpl.
        repeat split; ring.
      + assert (HLp : 0 < L) by (unfold L in *; lra).
        exists ((along a q - (x0 - L)) / (2 * L)). split.
        * split.
          -- apply Rmult_le_pos; [unfold L in *; lra|]. left. apply Rinv_0_lt_compat. lra.
          -- apply (Rmult_le_reg_r (2 * L)); [lra|]. unfold Rdiv. rewrite Rmult_assoc, Rinv_l by lra. unfold L in *. lra.
        * rewrite !(proj1 (rotate_xy _ _ _)), !(proj2 (rotate_xy _ _ _)). simpl. repeat split; field; lra.
    - rewrite (frame_dist2 a), rot_along, rot_across. cbn [px py].
      replace (along a q - along a q) with 0 by ring.
      set (t := across_of a q - (y0 + y)) in *.
      assert (Rabs t * Rabs t <= r * r) by (apply Rmult_le_compat; auto).
      assert (Rabs t * Rabs t = t * t) by (rewrite <- Rabs_mult; apply Rabs_right; apply Rle_ge, Rle_0_sqr). lra.
  Qed.
End Lines.
